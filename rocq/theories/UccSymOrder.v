(** The order of the spin cases of a descending list of orbitals. *)
From Coq Require Import List ZArith Arith Bool Lia Sorting.Permutation Sorting.Sorted.
From Verif Require Import Base BaseFacts PropFsucc UccModel UccProofs UccInit UccSymModel UccSymFacts.
Import ListNotations.

(** spin cases with the spin of the first orbital running fastest, spin up first *)
Fixpoint column_major (norb : nat) (p : list nat) : list (list nat) :=
  match p with [] => [[]] | x :: p => flat_map (fun r => [x :: r; x + norb :: r]) (column_major norb p) end.
Fixpoint cm (norb : nat) (p : list nat) : list (list nat * nat) :=
  match p with [] => [([], 0)] | x :: p => flat_map (fun r => [(x :: fst r, snd r); (x + norb :: fst r, S (snd r))]) (cm norb p) end.
Lemma cm_fst norb p : map fst (cm norb p) = column_major norb p.
Proof.
  induction p as [|x p IH]; [reflexivity|]. cbn [cm column_major]. rewrite <- IH. generalize (cm norb p) as l. induction l as [|r l IHl]; [reflexivity|].
  cbn [flat_map app map fst]. now rewrite IHl.
Qed.
Lemma spin_step_cons norb x i rows : spin_step norb (flat_map (fun r => [(x :: fst r, snd r); (x + norb :: fst r, S (snd r))]) rows) (S i) =
  flat_map (fun r => [(x :: fst r, snd r); (x + norb :: fst r, S (snd r))]) (spin_step norb rows i).
Proof.
  unfold spin_step. rewrite flat_map_app. f_equal. induction rows as [|r rows IH]; [reflexivity|]. cbn [flat_map app map fst snd]. rewrite IH. reflexivity.
Qed.
Lemma spin_rows_cm norb p : spin_rows norb p = cm norb p.
Proof.
  induction p as [|x p IH]; [reflexivity|]. unfold spin_rows. cbn [length seq fold_left]. unfold spin_step at 2. cbn [map upd fst snd app].
  cbn [cm]. rewrite <- IH. unfold spin_rows. rewrite <- seq_shift.
  change [(x :: p, 0); (x + norb :: p, 1)] with (flat_map (fun r => [(x :: fst r, snd r); (x + norb :: fst r, S (snd r))]) [(p, 0)]).
  generalize [(p, 0)] as rows. generalize (seq 0 (length p)) as l. induction l as [|i l IHl]; intros rows; [reflexivity|].
  cbn [map fold_left]. rewrite spin_step_cons. apply IHl.
Qed.

(** ** comparison of sorted lists *)
Notation count l x := (count_occ Nat.eq_dec l x).
Lemma count_below l x : StronglySorted le l -> (forall y, hd_error l = Some y -> x < y) -> count l x = 0.
Proof.
  intros S H. apply count_occ_not_In. intros I. destruct l as [|y l]; [destruct I|]. specialize (H y eq_refl). inversion S; subst.
  destruct I as [->|I]; [lia|]. rewrite Forall_forall in *. match goal with F : forall _, In _ l -> _ |- _ => specialize (F x I) end. lia.
Qed.
Lemma lex_first A : forall B x, StronglySorted le A -> StronglySorted le B -> length A = length B -> (forall y, y < x -> count A y = count B y) -> count B x < count A x ->
  lexcmp (map Z.of_nat A) (map Z.of_nat B) = Lt.
Proof.
  induction A as [|a A IH]; intros B x SA SB L H C; [cbn in C; lia|]. destruct B as [|b B]; [discriminate|]. cbn [map lexcmp].
  destruct (Nat.lt_trichotomy a b) as [J|[J|J]].
  - assert (E : (Z.of_nat a ?= Z.of_nat b)%Z = Lt) by (apply Z.compare_lt_iff; lia). now rewrite E.
  - subst b. rewrite Z.compare_refl. inversion SA; inversion SB; subst. apply (IH B x); auto.
    + intros y Hy. specialize (H y Hy). cbn [count_occ] in H. destruct (Nat.eq_dec a y); lia.
    + cbn [count_occ] in C. destruct (Nat.eq_dec a x); lia.
  - exfalso. assert (Z : count (a :: A) b = 0) by (apply count_below; [exact SA|]; cbn; intros y E; injection E as <-; exact J).
    assert (P : 1 <= count (b :: B) b) by (cbn [count_occ]; destruct (Nat.eq_dec b b); [lia|congruence]).
    destruct (Nat.lt_trichotomy b x) as [X|[X|X]].
    + specialize (H b X). lia.
    + subst b. lia.
    + assert (Z2 : count (a :: A) x = 0) by (apply count_below; [exact SA|]; cbn; intros y E; injection E as <-; lia). lia.
Qed.
Lemma insert_sorted x l : StronglySorted le l -> StronglySorted le (insert_n x l).
Proof.
  induction 1 as [|y l Hl IH Hy]; cbn [insert_n]; [repeat constructor|]. destruct (Nat.leb_spec x y).
  - constructor; [now constructor|]. constructor; [assumption|]. rewrite Forall_forall in *. intros z I. specialize (Hy z I). lia.
  - constructor; [exact IH|]. rewrite Forall_forall in *. intros z I. apply (Permutation_in _ (insert_perm x l)) in I. destruct I as [->|I]; [lia|now apply Hy].
Qed.
Lemma sort_sorted l : StronglySorted le (sort_n l).
Proof. induction l as [|x l IH]; [constructor|]. cbn [sort_n fold_right]. now apply insert_sorted. Qed.
Definition before (p : list nat) (x y : list nat * nat) : Prop := exists z, In z p /\ (forall q, q < z -> count (fst x) q = count (fst y) q) /\ count (fst y) z < count (fst x) z.
Lemma before_lt p x y : length (fst x) = length (fst y) -> before p x y -> lexcmp (row_key x) (row_key y) = Lt.
Proof.
  intros L (z & _ & H & C). unfold row_key. apply (lex_first _ _ z); try apply sort_sorted.
  - now rewrite !(Permutation_length (sort_perm _)).
  - intros q Hq. rewrite !(proj1 (Permutation_count_occ Nat.eq_dec _ _) (sort_perm _)). now apply H.
  - rewrite !(proj1 (Permutation_count_occ Nat.eq_dec _ _) (sort_perm _)). exact C.
Qed.
Lemma cm_len norb p r : In r (cm norb p) -> length (fst r) = length p.
Proof.
  revert r. induction p as [|x p IH]; intros r I; cbn [cm] in I.
  - destruct I as [<-|[]]. reflexivity.
  - apply in_flat_map in I. destruct I as (r' & I' & I). apply IH in I'. destruct I as [<-|[<-|[]]]; cbn; lia.
Qed.
Lemma FOP_impl {A} (R R' : A -> A -> Prop) l : (forall x y, In x l -> In y l -> R x y -> R' x y) -> ForallOrdPairs R l -> ForallOrdPairs R' l.
Proof.
  intros H F. induction F as [|x l Hx Hl IH]; [constructor|]. constructor.
  - rewrite Forall_forall in *. intros y I. apply H; [now left|now right|auto].
  - apply IH. intros; apply H; try (now right); auto.
Qed.
Lemma cm_sorted norb p : 0 < norb -> StronglySorted gt p -> ForallOrdPairs (before p) (cm norb p).
Proof.
  intros N. induction 1 as [|x p Hp IH Hx]; [repeat constructor|]. cbn [cm]. apply FOP_flat_map.
  - intros r _. constructor; [|repeat constructor]. constructor; [|constructor]. exists x. split; [now left|]. cbn [fst count_occ].
    destruct (Nat.eq_dec x x); [|congruence]. destruct (Nat.eq_dec (x + norb) x); [lia|]. split; [|lia].
    intros q Hq. destruct (Nat.eq_dec x q); [lia|]. destruct (Nat.eq_dec (x + norb) q); [lia|reflexivity].
  - apply (FOP_impl (before p)); [|exact IH]. intros r r' _ _ (z & Iz & H & C) g h Ig Ih. rewrite Forall_forall in Hx.
    assert (Z : z < x) by exact (Hx z Iz). exists z. split; [now right|].
    assert (Q : forall q r g, q <= z -> In g [(x :: fst r, snd r); (x + norb :: fst r, S (snd r))] -> count (fst g) q = count (fst r) q).
    { clear - Z N. intros q r g J [<-|[<-|[]]]; cbn [fst count_occ]; [destruct (Nat.eq_dec x q) | destruct (Nat.eq_dec (x + norb) q)]; try reflexivity; lia. }
    split; [intros q J; rewrite (Q q r g), (Q q r' h) by (auto; lia); now apply H|]. rewrite (Q z r g), (Q z r' h) by (auto; lia). exact C.
Qed.
Lemma insert_row_last r l : Forall (fun y => klt y r) l -> insert_row r l = l ++ [r].
Proof.
  induction 1 as [|y l Hy Hl IH]; [reflexivity|]. cbn [insert_row app]. rewrite lexcmp_antisym, Hy. cbn [CompOpp]. now rewrite IH.
Qed.
Lemma fold_insert_id l : forall l0, ForallOrdPairs (fun x y => klt x y) (l0 ++ l) -> fold_left (fun l r => insert_row r l) l l0 = l0 ++ l.
Proof.
  induction l as [|x l IH]; intros l0 H; cbn [fold_left]; [now rewrite app_nil_r|].
  rewrite insert_row_last.
  - rewrite IH; rewrite <- app_assoc; [reflexivity|exact H].
  - clear IH. induction l0 as [|y l0 IH0]; [constructor|]. cbn in H. inversion H as [|? ? Hy H']; subst. constructor; [|now apply IH0].
    rewrite Forall_forall in Hy. apply Hy. apply in_app_iff. right. now left.
Qed.
Lemma spincases_cm norb p : 0 < norb -> StronglySorted gt p -> spincases norb p = cm norb p.
Proof.
  intros N S. unfold spincases. rewrite spin_rows_cm. apply (fold_insert_id (cm norb p) []). cbn [app].
  apply (FOP_impl (before p)); [|now apply cm_sorted]. intros x y Ix Iy B. apply (before_lt p); [|exact B].
  now rewrite (cm_len norb p x Ix), (cm_len norb p y Iy).
Qed.

(** ** the six spin cases of a double excitation *)
Lemma doubles norb p q r s : q < p < norb -> s < r < norb -> (p, q) <> (r, s) ->
  cases norb [p; q] [r; s] = [([p; q], [r; s]); ([p + norb; q], [r + norb; s]); ([p + norb; q], [r; s + norb]);
     ([p; q + norb], [r + norb; s]); ([p; q + norb], [r; s + norb]); ([p + norb; q + norb], [r + norb; s + norb])].
Proof.
  intros Hp Hr N. unfold cases. rewrite !spincases_cm by (try lia; repeat constructor; lia).
  assert (ND : forall x y, x <> y -> nodupb [x; y] = true) by (intros x y H; apply nodupb_ok; repeat constructor; cbn; intuition).
  assert (NE : list_eqb [p; q] [r; s] = false) by (destruct (list_eqb [p; q] [r; s]) eqn:E; [apply list_eqb_ok in E; congruence|reflexivity]).
  assert (LE : forall x y z w, (x, y) <> (z, w) -> list_eqb [x; y] [z; w] = false) by (intros x y z w H; destruct (list_eqb [x; y] [z; w]) eqn:E; [apply list_eqb_ok in E; congruence|reflexivity]).
  unfold enum. cbn [cm flat_map app length combine seq fst snd]. rewrite !ND by lia. cbn [Nat.eqb negb]. rewrite NE. cbn [andb].
  rewrite !LE by (intros E; injection E; intros; try lia; apply N; f_equal; lia). reflexivity.
Qed.
Lemma double_same norb p q : q < p < norb -> cases norb [p; q] [p; q] = [([p + norb; q], [p; q + norb])].
Proof.
  intros Hp. unfold cases. rewrite !spincases_cm by (try lia; repeat constructor; lia).
  assert (ND : forall x y, x <> y -> nodupb [x; y] = true) by (intros x y H; apply nodupb_ok; repeat constructor; cbn; intuition).
  assert (LE : forall x y z w, (x, y) <> (z, w) -> list_eqb [x; y] [z; w] = false) by (intros x y z w H; destruct (list_eqb [x; y] [z; w]) eqn:E; [apply list_eqb_ok in E; congruence|reflexivity]).
  assert (LR : forall l, list_eqb l l = true) by (intros l; now apply list_eqb_ok).
  unfold enum. cbn [cm flat_map app length combine seq fst snd]. rewrite !ND by lia. cbn [Nat.eqb negb]. rewrite !LR. cbn [andb Nat.ltb Nat.leb].
  rewrite !LE by (intros E; injection E; intros; lia). reflexivity.
Qed.
