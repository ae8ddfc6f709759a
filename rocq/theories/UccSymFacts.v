(** Spin cases of lists of orbitals, and the generators made of them. *)
From Coq Require Import List ZArith Arith Bool Lia Sorting.Permutation Sorting.Sorted.
From Verif Require Import Base BaseFacts PropFsucc UccModel UccProofs UccInit UccSymModel.
Import ListNotations.

(** [put norb s p]: the orbitals [p] with spin down where [s] is true *)
Fixpoint put (norb : nat) (s : list bool) (p : list nat) : list nat :=
  match s, p with b :: s, x :: p => (if b then x + norb else x) :: put norb s p | _, _ => [] end.
Definition downs (s : list bool) : nat := count_occ bool_dec s true.
(** number of orbitals with spin down *)
Definition beta (norb : nat) (l : list nat) : nat := length (filter (fun x => norb <=? x) l).

(** ** rows *)
Lemma upd_put norb s j : forall p, length p = (length s + S j)%nat ->
  upd (length s) (fun x => x + norb) (put norb (s ++ repeat false (S j)) p) = put norb (s ++ true :: repeat false j) p.
Proof.
  induction s as [|b s IH]; intros [|x p] L; cbn [length] in L; try lia.
  - reflexivity.
  - cbn [app put length upd]. f_equal. apply IH. lia.
Qed.
Lemma downs_app s s' : downs (s ++ s') = downs s + downs s'.
Proof. apply count_occ_app. Qed.
Lemma spin_rows_k norb p k : k <= length p -> forall r m,
  In (r, m) (fold_left (spin_step norb) (seq 0 k) [(p, 0)]) <->
  exists s, length s = k /\ r = put norb (s ++ repeat false (length p - k)) p /\ m = downs s.
Proof.
  induction k as [|k IH]; intros Hk r m.
  - cbn [seq fold_left In]. rewrite Nat.sub_0_r. assert (E : forall p, put norb (repeat false (length p)) p = p).
    { clear. induction p as [|x p IH]; [reflexivity|]. cbn. now rewrite IH. }
    split.
    + intros [H|[]]. injection H as <- <-. exists []. cbn. now rewrite E.
    + intros (s & L & -> & ->). destruct s; [|discriminate]. cbn. rewrite E. now left.
  - rewrite seq_S, fold_left_app. cbn [fold_left Nat.add]. unfold spin_step at 1. rewrite in_app_iff, in_map_iff.
    assert (J : length p - k = S (length p - S k)) by lia. specialize (IH ltac:(lia)). split.
    + intros [H|((r', m') & E & H)].
      * apply IH in H. destruct H as (s & L & -> & ->). exists (s ++ [false]). rewrite app_length, downs_app. cbn. rewrite <- app_assoc, J. repeat split; try lia. 
      * apply IH in H. destruct H as (s & L & -> & ->). cbn [fst snd] in E. injection E as <- <-. exists (s ++ [true]). rewrite app_length, downs_app, <- app_assoc. cbn.
        split; [lia|]. split; [|lia]. rewrite J, <- L. rewrite <- (upd_put norb s) by lia. reflexivity.
    + intros (s & L & -> & ->). destruct s as [|b s] using rev_ind; [discriminate|]. clear IHs. rewrite app_length in L. cbn in L.
      rewrite downs_app, <- app_assoc. destruct b.
      * right. exists (put norb (s ++ repeat false (length p - k)) p, downs s). split; [|apply IH; exists s; repeat split; lia].
        cbn [fst snd]. rewrite J. replace k with (length s) at 1 by lia. rewrite upd_put by lia. f_equal. cbn. lia.
      * left. apply IH. exists s. rewrite J. cbn. repeat split; lia.
Qed.
Lemma spin_rows_in norb p r m : In (r, m) (spin_rows norb p) <-> exists s, length s = length p /\ r = put norb s p /\ m = downs s.
Proof.
  unfold spin_rows. rewrite spin_rows_k by lia. rewrite Nat.sub_diag. cbn [repeat]. setoid_rewrite app_nil_r. reflexivity.
Qed.

(** ** sorting *)
Lemma insert_perm x l : Permutation (insert_n x l) (x :: l).
Proof.
  induction l as [|y l IH]; [reflexivity|]. cbn [insert_n]. destruct (x <=? y); [reflexivity|]. rewrite IH. apply perm_swap.
Qed.
Lemma sort_perm l : Permutation (sort_n l) l.
Proof. induction l as [|x l IH]; [reflexivity|]. cbn [sort_n fold_right]. unfold sort_n in IH. rewrite insert_perm. now constructor. Qed.
Lemma row_key_perm x y : row_key x = row_key y <-> Permutation (fst x) (fst y).
Proof.
  unfold row_key. split.
  - intros H. apply of_nat_inj in H. rewrite <- (sort_perm (fst x)), H. apply sort_perm.
  - intros H. now rewrite (sort_perm_eq _ _ H).
Qed.
Lemma lex_lt_trans a : forall b c, lexcmp a b = Lt -> lexcmp b c = Lt -> lexcmp a c = Lt.
Proof.
  induction a as [|x a IH]; intros [|y b] [|z c] H1 H2; cbn in *; try discriminate; try reflexivity.
  destruct (x ?= y)%Z eqn:E1; try discriminate.
  - apply Z.compare_eq in E1. subst y. destruct (x ?= z)%Z; try discriminate; [eauto|reflexivity].
  - destruct (y ?= z)%Z eqn:E2; try discriminate.
    + apply Z.compare_eq in E2. subst z. now rewrite E1.
    + assert (E : (x ?= z)%Z = Lt) by exact (Z.lt_trans x y z E1 E2). now rewrite E.
Qed.
Notation klt := (fun x y => lexcmp (row_key x) (row_key y) = Lt).
Lemma insert_row_in r l x : In x (insert_row r l) -> x = r \/ In x l.
Proof.
  induction l as [|y l IH]; cbn [insert_row]; [intros [H|[]]; auto|].
  destruct (lexcmp (row_key r) (row_key y)); cbn [In]; intuition.
Qed.
Lemma insert_row_old r l x : In x l -> In x (insert_row r l).
Proof.
  induction l as [|y l IH]; cbn [insert_row]; [intros []|].
  destruct (lexcmp (row_key r) (row_key y)); cbn [In]; intuition.
Qed.
Lemma insert_row_new r l : exists y, In y (insert_row r l) /\ row_key y = row_key r.
Proof.
  induction l as [|y l IH]; cbn [insert_row]; [exists r; split; [now left|reflexivity]|].
  destruct (lexcmp (row_key r) (row_key y)) eqn:E.
  - exists y. split; [now left|]. apply lexcmp_eq in E. now symmetry.
  - exists r. split; [now left|reflexivity].
  - destruct IH as (z & I & H). exists z. split; [now right|exact H].
Qed.
Lemma insert_row_sorted r l : StronglySorted klt l -> StronglySorted klt (insert_row r l).
Proof.
  induction 1 as [|y l Hl IH Hy]; cbn [insert_row]; [repeat constructor|].
  destruct (lexcmp (row_key r) (row_key y)) eqn:E.
  - now constructor.
  - constructor; [now constructor|]. constructor; [exact E|]. rewrite Forall_forall in *. intros z I. eapply lex_lt_trans; [exact E|now apply Hy].
  - constructor; [exact IH|]. rewrite Forall_forall in *. intros z I. apply insert_row_in in I. destruct I as [->|I]; [|now apply Hy].
    rewrite lexcmp_antisym, E. reflexivity.
Qed.
Lemma fold_insert l : forall l0, StronglySorted klt l0 ->
  let r := fold_left (fun l r => insert_row r l) l l0 in
  StronglySorted klt r /\ (forall x, In x r -> In x l \/ In x l0) /\ (forall x, In x l0 -> In x r) /\
  (forall x, In x l -> exists y, In y r /\ row_key y = row_key x).
Proof.
  induction l as [|x l IH]; intros l0 S; cbn [fold_left].
  - split; [exact S|]. split; [auto|]. split; [auto|]. intros x [].
  - destruct (IH (insert_row x l0) (insert_row_sorted x l0 S)) as (A & B & C & D). split; [exact A|]. split; [|split].
    + intros y I. apply B in I. destruct I as [I|I]; [left; now right|]. apply insert_row_in in I. destruct I as [->|I]; [left; now left|now right].
    + intros y I. apply C. now apply insert_row_old.
    + intros y [<-|I]; [|now apply D]. destruct (insert_row_new x l0) as (z & I & E). exists z. split; [now apply C|exact E].
Qed.
Lemma sc_sorted norb p : StronglySorted klt (spincases norb p).
Proof. apply (fold_insert (spin_rows norb p) [] ltac:(constructor)). Qed.
Lemma sc_in norb p r m : In (r, m) (spincases norb p) -> exists s, length s = length p /\ r = put norb s p /\ m = downs s.
Proof. intros H. apply (fold_insert (spin_rows norb p) [] ltac:(constructor)) in H. destruct H as [H|[]]. now apply spin_rows_in. Qed.
Lemma sc_cover norb p s : length s = length p -> exists r m, In (r, m) (spincases norb p) /\ Permutation r (put norb s p).
Proof.
  intros L. destruct (fold_insert (spin_rows norb p) [] ltac:(constructor)) as (_ & _ & _ & D).
  destruct (D (put norb s p, downs s)) as ((r, m) & I & E); [apply spin_rows_in; eauto|].
  exists r, m. split; [exact I|]. now apply row_key_perm in E.
Qed.
Lemma sc_pos norb p j k x y : nth_error (spincases norb p) j = Some x -> nth_error (spincases norb p) k = Some y ->
  Permutation (fst x) (fst y) -> j = k.
Proof.
  assert (G : forall l, StronglySorted klt l -> forall j k, (j < k)%nat -> nth_error l j = Some x -> nth_error l k = Some y -> ~ Permutation (fst x) (fst y)).
  { clear. induction 1 as [|z l Hl IH Hz]; intros j k J Ex Ey P; [destruct j; discriminate|].
    destruct k as [|k]; [lia|]. cbn in Ey. destruct j as [|j]; cbn in Ex.
    - injection Ex as ->. rewrite Forall_forall in Hz. apply nth_error_In in Ey. specialize (Hz y Ey).
      apply row_key_perm in P. rewrite P, lexcmp_refl in Hz. discriminate.
    - apply (IH j k ltac:(lia) Ex Ey P). }
  intros Ex Ey P. destruct (lt_eq_lt_dec j k) as [[L|E]|L]; [|exact E|].
  - destruct (G _ (sc_sorted norb p) j k L Ex Ey P).
  - exfalso. clear G. assert (G : forall l, StronglySorted klt l -> forall j k, (j < k)%nat -> nth_error l j = Some y -> nth_error l k = Some x -> ~ Permutation (fst x) (fst y)).
    { clear. induction 1 as [|z l Hl IH Hz]; intros j k J Ex Ey P; [destruct j; discriminate|].
      destruct k as [|k]; [lia|]. cbn in Ey. destruct j as [|j]; cbn in Ex.
      - injection Ex as ->. rewrite Forall_forall in Hz. apply nth_error_In in Ey. specialize (Hz x Ey).
        apply row_key_perm in P. rewrite P, lexcmp_refl in Hz. discriminate.
      - apply (IH j k ltac:(lia) Ex Ey P). }
    exact (G _ (sc_sorted norb p) k j L Ey Ex P).
Qed.

(** ** put *)
Lemma put_len norb s : forall p, length s = length p -> length (put norb s p) = length p.
Proof. induction s as [|b s IH]; intros [|x p] L; cbn in *; try lia. now rewrite IH by lia. Qed.
Lemma put_below norb s : forall p, below norb p -> below (2 * norb) (put norb s p).
Proof.
  unfold below. induction s as [|b s IH]; intros [|x p] H; cbn [put]; try constructor; inversion H; subst; [destruct b; lia|now apply IH].
Qed.
Lemma put_mod norb s : forall p, length s = length p -> below norb p -> map (fun x => x mod norb) (put norb s p) = p.
Proof.
  unfold below. induction s as [|b s IH]; intros [|x p] L H; cbn [put map length] in *; try discriminate; [reflexivity|]. inversion H; subst. f_equal; [|now apply IH; [lia|]].
  destruct b; [|now apply Nat.mod_small]. replace (x + norb) with (x + 1 * norb) by lia. rewrite Nat.mod_add by lia. now apply Nat.mod_small.
Qed.
Lemma put_beta norb s : forall p, length s = length p -> below norb p -> beta norb (put norb s p) = downs s.
Proof.
  unfold below, beta, downs. induction s as [|b s IH]; intros [|x p] L H; cbn [put filter length count_occ] in *; try discriminate; [reflexivity|]. inversion H; subst.
  specialize (IH p ltac:(lia) ltac:(assumption)). destruct b.
  - assert (E : norb <=? x + norb = true) by (apply Nat.leb_le; lia). rewrite E. cbn [length]. rewrite IH. now destruct (bool_dec true true).
  - assert (E : norb <=? x = false) by (apply Nat.leb_gt; lia). rewrite E, IH. now destruct (bool_dec false true).
Qed.
(** every list of spin orbitals is one of the spin cases of its orbitals *)
Lemma put_any norb l : below (2 * norb) l -> exists s, length s = length l /\ l = put norb s (map (fun x => x mod norb) l).
Proof.
  unfold below. induction 1 as [|x l Hx Hl (s & L & E)]; [now exists []|].
  exists ((norb <=? x) :: s). cbn [length map put]. split; [lia|]. f_equal; [|exact E].
  destruct (Nat.leb_spec norb x).
  - replace x with ((x - norb) + 1 * norb) at 2 by lia. rewrite Nat.mod_add by lia. rewrite Nat.mod_small by lia. lia.
  - now rewrite Nat.mod_small.
Qed.
Lemma put_perm norb p p' : Permutation p p' -> forall s, length s = length p -> exists s', length s' = length p' /\ Permutation (put norb s p) (put norb s' p').
Proof.
  induction 1 as [|x p p' H IH|x y p|p p' p'' H1 IH1 H2 IH2]; intros s L.
  - exists []. destruct s; [split; [reflexivity|constructor]|discriminate].
  - destruct s as [|b s]; [discriminate|]. destruct (IH s ltac:(cbn in L; lia)) as (s' & L' & P). exists (b :: s'). cbn. split; [lia|]. now constructor.
  - destruct s as [|b [|b' s]]; try discriminate. exists (b' :: b :: s). cbn in *. split; [lia|]. apply perm_swap.
  - destruct (IH1 s L) as (s' & L' & P'). destruct (IH2 s' L') as (s'' & L'' & P''). exists s''. split; [exact L''|]. now transitivity (put norb s' p').
Qed.
Lemma beta_perm norb l l' : Permutation l l' -> beta norb l = beta norb l'.
Proof.
  unfold beta. induction 1 as [|x l l' H IH|x y l|l l' l'' H1 IH1 H2 IH2]; cbn [filter]; [reflexivity| | |congruence].
  - destruct (norb <=? x); cbn [length]; congruence.
  - destruct (norb <=? x), (norb <=? y); reflexivity.
Qed.
Lemma nbeta_beta norb l : below (2 * norb) l -> nbeta norb l = beta norb l.
Proof.
  unfold below, nbeta, beta. induction 1 as [|x l Hx Hl IH]; [reflexivity|]. cbn [map filter]. change (list_sum (x / norb :: map (fun x => x / norb) l)) with (x / norb + list_sum (map (fun x => x / norb) l)).
  rewrite IH. destruct (Nat.leb_spec norb x); cbn [length].
  - assert (E : x / norb = 1); [|lia]. symmetry. apply (Nat.div_unique x norb 1 (x - norb)); lia.
  - now rewrite Nat.div_small.
Qed.
(** the row of the spin cases of [p] that is a given list of spin orbitals *)
Lemma sc_find norb p l : below (2 * norb) l -> Permutation (map (fun x => x mod norb) l) p ->
  exists j r m, nth_error (spincases norb p) j = Some (r, m) /\ Permutation r l.
Proof.
  intros B P. destruct (put_any norb l B) as (s & L & E). destruct (put_perm norb _ _ P s) as (s' & L' & P').
  - now rewrite map_length.
  - destruct (sc_cover norb p s' L') as (r & m & I & P''). apply In_nth_error in I. destruct I as [j I]. exists j, r, m. split; [exact I|].
    rewrite P'', <- P', <- E. reflexivity.
Qed.
Lemma sc_row norb p j r m : below norb p -> nth_error (spincases norb p) j = Some (r, m) ->
  below (2 * norb) r /\ map (fun x => x mod norb) r = p /\ m = beta norb r.
Proof.
  intros B E. apply nth_error_In, sc_in in E. destruct E as (s & L & -> & ->).
  split; [now apply put_below|]. split; [now apply put_mod|]. symmetry. now apply put_beta.
Qed.

(** ** generators *)
Lemma FOP_app {A} (R : A -> A -> Prop) l1 l2 : ForallOrdPairs R l1 -> ForallOrdPairs R l2 -> (forall x y, In x l1 -> In y l2 -> R x y) -> ForallOrdPairs R (l1 ++ l2).
Proof.
  induction 1 as [|x l Hx Hl IH]; intros H2 H; [exact H2|]. cbn. constructor.
  - rewrite Forall_forall in *. intros y I. apply in_app_iff in I. destruct I as [I|I]; [now apply Hx|]. apply H; [now left|exact I].
  - apply IH; [exact H2|]. intros; apply H; [now right|assumption].
Qed.
Lemma FOP_flat_map {A B} (R : B -> B -> Prop) (f : A -> list B) l : (forall x, In x l -> ForallOrdPairs R (f x)) ->
  ForallOrdPairs (fun x y => forall g h, In g (f x) -> In h (f y) -> R g h) l -> ForallOrdPairs R (flat_map f l).
Proof.
  intros H1 H2. induction H2 as [|x l Hx Hl IH]; [constructor|]. cbn [flat_map]. apply FOP_app.
  - apply H1. now left.
  - apply IH. intros; apply H1; now right.
  - intros g h Ig Ih. apply in_flat_map in Ih. destruct Ih as (y & Iy & Ih). rewrite Forall_forall in Hx. exact (Hx y Iy g h Ig Ih).
Qed.
Lemma enum_in {A} (l : list A) j x : In (j, x) (enum l) <-> nth_error l j = Some x.
Proof.
  unfold enum. assert (G : forall (l : list A) b j (x : A), In (j, x) (combine (seq b (length l)) l) <-> (b <= j /\ nth_error l (j - b) = Some x)).
  { clear. induction l as [|y l IH]; intros b j x; cbn [length seq combine In].
    - split; [intros []|]. intros [_ H]. now destruct (j - b).
    - rewrite IH. split.
      + intros [H|[H1 H2]]; [injection H as -> ->; split; [lia|now rewrite Nat.sub_diag]|]. split; [lia|]. now replace (j - b) with (S (j - S b)) by lia.
      + intros [H1 H2]. destruct (Nat.eq_dec b j) as [->|N]; [left; rewrite Nat.sub_diag in H2; cbn in H2; now injection H2 as ->|].
        right. split; [lia|]. now replace (j - b) with (S (j - S b)) in H2 by lia. }
  rewrite G, Nat.sub_0_r. split; [tauto|]. split; [lia|assumption].
Qed.
Lemma enum_FOP {A} (R : nat * A -> nat * A -> Prop) l : (forall j k x y, j < k -> nth_error l j = Some x -> nth_error l k = Some y -> R (j, x) (k, y)) ->
  ForallOrdPairs R (enum l).
Proof.
  intros H. unfold enum. assert (G : forall (l : list A) b, (forall j k (x y : A), j < k -> nth_error l j = Some x -> nth_error l k = Some y -> R (b + j, x) (b + k, y)) ->
     ForallOrdPairs R (combine (seq b (length l)) l)).
  { clear. induction l as [|y l IH]; intros b H; cbn [length seq combine]; constructor.
    - apply Forall_forall. intros (j, x) I. assert (E : nth_error l (j - S b) = Some x /\ S b <= j).
      { clear - I. revert I. generalize (S b) as c. induction l as [|z l IH]; intros c I; [destruct I|]. cbn [length seq combine In] in I. destruct I as [I|I].
        - injection I as -> ->. now rewrite Nat.sub_diag.
        - apply IH in I. destruct I as [I1 I2]. split; [|lia]. now replace (j - c) with (S (j - S c)) by lia. }
      destruct E as [E L]. specialize (H 0 (S (j - S b)) y x ltac:(lia) eq_refl E). replace (b + 0) with b in H by lia. now replace (b + S (j - S b)) with j in H by lia.
    - apply IH. intros j k x z J Ex Ez. specialize (H (S j) (S k) x z ltac:(lia) Ex Ez). now replace (S b + j) with (b + S j) by lia; replace (S b + k) with (b + S k) by lia. }
  apply G. intros j k x y. cbn. apply H.
Qed.
Lemma cases_in norb a i ab ij : In (ab, ij) (cases norb a i) <->
  exists ix jx ma mi, nth_error (spincases norb a) ix = Some (ab, ma) /\ nth_error (spincases norb i) jx = Some (ij, mi) /\
    NoDup ab /\ NoDup ij /\ mi = ma /\ ab <> ij /\ (a = i -> ix <= jx).
Proof.
  unfold cases. rewrite in_flat_map. split.
  - intros ((ix & ab' & ma) & I1 & I2). apply enum_in in I1. destruct (nodupb ab') eqn:N1; [|destruct I2].
    apply in_flat_map in I2. destruct I2 as ((jx & ij' & mi) & I2 & I3). apply enum_in in I2.
    destruct (Nat.eqb_spec mi ma) as [E1|]; cbn [negb] in I3; [|destruct I3].
    destruct (list_eqb ab' ij') eqn:E2; [destruct I3|]. destruct (list_eqb a i && (jx <? ix)) eqn:E3; [destruct I3|].
    destruct (nodupb ij') eqn:N2; [|destruct I3]. destruct I3 as [I3|[]]. injection I3 as -> ->.
    exists ix, jx, ma, mi. split; [exact I1|]. split; [exact I2|]. split; [now apply nodupb_ok|]. split; [now apply nodupb_ok|]. split; [exact E1|]. split.
    + intros C. apply list_eqb_ok in C. congruence.
    + intros C. apply list_eqb_ok in C. rewrite C in E3. cbn in E3. apply Nat.ltb_ge in E3. exact E3.
  - intros (ix & jx & ma & mi & I1 & I2 & N1 & N2 & -> & N & H). exists (ix, (ab, ma)). split; [now apply enum_in|].
    apply nodupb_ok in N1, N2. rewrite N1. apply in_flat_map. exists (jx, (ij, ma)). split; [now apply enum_in|].
    rewrite Nat.eqb_refl. cbn [negb]. destruct (list_eqb ab ij) eqn:E2; [now apply list_eqb_ok in E2|].
    destruct (list_eqb a i && (jx <? ix)) eqn:E3.
    + apply andb_true_iff in E3. destruct E3 as [E3 E4]. apply list_eqb_ok in E3. apply Nat.ltb_lt in E4. specialize (H E3). lia.
    + rewrite N2. now left.
Qed.
Lemma same_perm a b : NoDup a -> NoDup b -> same_set a b -> Permutation a b.
Proof. intros. now apply NoDup_Permutation. Qed.

(** the orbitals of two lists of spin orbitals that are permutations of each other *)
Definition spatial (norb : nat) (l : list nat) : list nat := map (fun x => x mod norb) l.
Definition gens_of (norb : nat) (g : gen) : list gen :=
  match fst g with [_] => [g; (map (fun x => x + norb) (fst g), map (fun x => x + norb) (snd g))] | _ => cases norb (fst g) (snd g) end.
(** an excitation between two lists of orbitals that has spin cases *)
Definition good (norb : nat) (g : gen) : Prop :=
  below norb (fst g) /\ below norb (snd g) /\ length (fst g) = length (snd g) /\ fst g <> [] /\
  (Permutation (fst g) (snd g) -> fst g = snd g /\ 2 <= length (fst g)).
Definition valid_gen (norb : nat) (g : gen) : Prop := sane (2 * norb) g /\ length (fst g) = length (snd g) /\ beta norb (fst g) = beta norb (snd g).

Lemma gens_of_in norb g h : good norb g -> In h (gens_of norb g) ->
  valid_gen norb h /\ spatial norb (fst h) = fst g /\ spatial norb (snd h) = snd g.
Proof.
  destruct g as [a i]. intros (Ba & Bi & L & N0 & Hp) I. cbn [fst snd] in *. unfold gens_of in I. cbn [fst snd] in I.
  destruct a as [|x [|y a]]; [contradiction| |].
  - destruct i as [|z [|z' i]]; cbn in L; try discriminate. unfold below in Ba, Bi. inversion Ba as [|? ? Bx _]; inversion Bi as [|? ? Bz _]; subst.
    assert (N : x <> z).
    { intros ->. destruct (Hp (Permutation_refl _)) as [_ C]. cbn in C. lia. }
    destruct I as [<-|[<-|[]]]; cbn [fst snd map spatial].
    + split; [|split; f_equal; now apply Nat.mod_small]. split; [|split; [reflexivity|]].
      * unfold sane, below. cbn [fst snd]. repeat split; repeat constructor; auto; try lia. intros C. destruct (proj1 (C x) (or_introl eq_refl)) as [|[]]; congruence.
      * unfold beta. cbn [fst snd filter]. destruct (Nat.leb_spec norb x), (Nat.leb_spec norb z); try lia; reflexivity.
    + split.
      2:{ split; f_equal; [replace (x + norb) with (x + 1 * norb) by lia | replace (z + norb) with (z + 1 * norb) by lia]; rewrite Nat.mod_add by lia; now apply Nat.mod_small. }
      split; [|split; [reflexivity|]].
      * unfold sane, below. cbn [fst snd map]. repeat split; repeat constructor; auto; try lia. intros C. destruct (proj1 (C (x + norb)) (or_introl eq_refl)) as [|[]]; lia.
      * unfold beta. cbn [fst snd map filter]. destruct (Nat.leb_spec norb (x + norb)), (Nat.leb_spec norb (z + norb)); try lia; reflexivity.
  - destruct h as [ab ij]. apply cases_in in I. destruct I as (ix & jx & ma & mi & E1 & E2 & N1 & N2 & -> & N & H).
    destruct (sc_row norb _ ix ab ma Ba E1) as (B1 & S1 & M1). destruct (sc_row norb _ jx ij ma Bi E2) as (B2 & S2 & M2). cbn [fst snd].
    split; [|split; assumption]. split; [|split].
    + unfold sane. cbn [fst snd]. repeat (split; [assumption|]). intros C. apply same_perm in C; [|assumption|assumption].
      assert (P : Permutation (x :: y :: a) i) by (rewrite <- S1, <- S2; now apply Permutation_map).
      destruct (Hp P) as [E _]. rewrite <- E in E2. apply N. pose proof (sc_pos norb _ ix jx _ _ E1 E2 C) as J. subst jx. congruence.
    + cbn [fst snd]. apply (f_equal (@length nat)) in S1, S2. rewrite map_length in S1, S2. congruence.
    + cbn [fst snd]. congruence.
Qed.
Lemma perm_spatial norb l l' : Permutation l l' -> Permutation (spatial norb l) (spatial norb l').
Proof. apply Permutation_map. Qed.
(** alike as lists of orbitals, each with its multiplicity *)
Definition palike (g h : gen) : Prop :=
  (Permutation (fst g) (fst h) /\ Permutation (snd g) (snd h)) \/ (Permutation (fst g) (snd h) /\ Permutation (snd g) (fst h)).
Lemma alike_palike norb g h : valid_gen norb g -> valid_gen norb h -> alike g h -> palike g h.
Proof.
  intros ((_ & _ & A1 & A2 & _) & _) ((_ & _ & B1 & B2 & _) & _) [[H1 H2]|[H1 H2]]; [left|right]; split; now apply same_perm.
Qed.
Lemma palike_spatial norb g h : palike g h -> palike (spatial norb (fst g), spatial norb (snd g)) (spatial norb (fst h), spatial norb (snd h)).
Proof. intros [[H1 H2]|[H1 H2]]; [left|right]; split; now apply perm_spatial. Qed.
Lemma gens_of_cross norb g g' h h' : good norb g -> good norb g' -> ~ palike g g' -> In h (gens_of norb g) -> In h' (gens_of norb g') -> ~ alike h h'.
Proof.
  intros G1 G2 N I1 I2 A. destruct (gens_of_in norb g h G1 I1) as (V1 & E1 & E2). destruct (gens_of_in norb g' h' G2 I2) as (V2 & E3 & E4).
  apply N. pose proof (palike_spatial norb h h' (alike_palike norb h h' V1 V2 A)) as P. rewrite E1, E2, E3, E4 in P. now destruct g, g'.
Qed.
Lemma gens_of_unalike norb g : good norb g -> unalike (gens_of norb g).
Proof.
  intros Gg. pose proof (gens_of_in norb g) as V. destruct g as [a i]. pose proof Gg as (Ba & Bi & L & N0 & Hp). cbn [fst snd] in *.
  unfold gens_of in *. cbn [fst snd] in *. destruct a as [|x [|y a]]; [contradiction| |].
  - destruct i as [|z [|z' i]]; cbn in L; try discriminate. unfold below in Ba, Bi. inversion Ba as [|? ? Bx _]; inversion Bi as [|? ? Bz _]; subst.
    unfold unalike. cbn [map]. repeat constructor. intros [[H _]|[H _]]; destruct (proj1 (H x) (or_introl eq_refl)) as [E|[]]; cbn in *; lia.
  - set (a' := x :: y :: a) in *.
    assert (Q : forall ix jx ix' jx' ma mi ma' mi' ab ij ab' ij', 
       nth_error (spincases norb a') ix = Some (ab, ma) -> nth_error (spincases norb i) jx = Some (ij, mi) ->
       nth_error (spincases norb a') ix' = Some (ab', ma') -> nth_error (spincases norb i) jx' = Some (ij', mi') ->
       In (ab, ij) (cases norb a' i) -> In (ab', ij') (cases norb a' i) -> (a' = i -> ix <= jx) -> (a' = i -> ix' <= jx') -> ab <> ij -> alike (ab, ij) (ab', ij') ->
       (ix = ix' /\ jx = jx')).
    { intros ix jx ix' jx' ma mi ma' mi' ab ij ab' ij' E1 E2 E3 E4 I1 I2 H1 H2 N A.
      destruct (V _ Gg I1) as (V1 & S1 & S2). destruct (V _ Gg I2) as (V2 & S3 & S4). cbn [fst snd] in *.
      apply (alike_palike norb) in A; [|assumption|assumption]. destruct A as [[P1 P2]|[P1 P2]]; cbn [fst snd] in P1, P2.
      - split; [exact (sc_pos norb _ _ _ _ _ E1 E3 P1) | exact (sc_pos norb _ _ _ _ _ E2 E4 P2)].
      - assert (P : Permutation a' i) by (rewrite <- S1, <- S4; now apply perm_spatial). destruct (Hp P) as [E _]. rewrite <- E in E2, E4, H1, H2.
        pose proof (sc_pos norb _ _ _ _ _ E1 E4 P1) as J1. pose proof (sc_pos norb _ _ _ _ _ E2 E3 P2) as J2. specialize (H1 eq_refl). specialize (H2 eq_refl).
        assert (J : ix = jx) by lia. exfalso. apply N. subst jx. congruence. }
    clear V. unfold unalike, cases. apply FOP_flat_map.
    + intros (ix & ab & ma) I1. apply enum_in in I1. destruct (nodupb ab) eqn:N1; [|constructor]. apply FOP_flat_map.
      * intros (jx & ij & mi) I2. destruct (negb (mi =? ma)); [constructor|]. destruct (list_eqb ab ij); [constructor|]. destruct (list_eqb a' i && (jx <? ix)); [constructor|].
        destruct (nodupb ij); repeat constructor.
      * apply enum_FOP. intros j k (ij & mi) (ij' & mi') J E E' g h Ig Ih A.
        assert (F : forall j ij mi g, nth_error (spincases norb i) j = Some (ij, mi) -> In g (if negb (mi =? ma) then [] else if list_eqb ab ij then [] else if list_eqb a' i && (j <? ix) then [] else if nodupb ij then [(ab, ij)] else []) ->
          g = (ab, ij) /\ In (ab, ij) (cases norb a' i) /\ (a' = i -> ix <= j) /\ ab <> ij).
        { clear - I1 N1. intros j ij mi g E I. destruct (Nat.eqb_spec mi ma); cbn [negb] in I; [|destruct I]. destruct (list_eqb ab ij) eqn:E2; [destruct I|].
          destruct (list_eqb a' i && (j <? ix)) eqn:E3; [destruct I|]. destruct (nodupb ij) eqn:N2; [|destruct I]. destruct I as [<-|[]].
          assert (X1 : ab <> ij) by (intros C; apply list_eqb_ok in C; congruence).
          assert (X2 : a' = i -> ix <= j) by (intros C; apply list_eqb_ok in C; rewrite C in E3; cbn in E3; now apply Nat.ltb_ge in E3).
          split; [reflexivity|]. split; [|auto]. apply cases_in. exists ix, j, ma, mi. apply nodupb_ok in N1, N2. repeat split; auto. }
        destruct (F j ij mi g E Ig) as (-> & C1 & C2 & C3). destruct (F k ij' mi' h E' Ih) as (-> & D1 & D2 & D3).
        destruct (Q ix j ix k ma mi ma mi' ab ij ab ij' I1 E I1 E' C1 D1 C2 D2 C3 A). lia.
    + apply enum_FOP. intros j k (ab & ma) (ab' & ma') J E E' g h Ig Ih A.
      assert (F : forall j ab ma g, nth_error (spincases norb a') j = Some (ab, ma) ->
        In g (if nodupb ab then flat_map (fun y => let '(jx, (ij, mi)) := y in if negb (mi =? ma) then [] else if list_eqb ab ij then [] else if list_eqb a' i && (jx <? j) then [] else if nodupb ij then [(ab, ij)] else []) (enum (spincases norb i)) else []) ->
        exists jx ij mi, nth_error (spincases norb i) jx = Some (ij, mi) /\ g = (ab, ij) /\ In (ab, ij) (cases norb a' i) /\ (a' = i -> j <= jx) /\ ab <> ij).
      { clear. intros j ab ma g E I. destruct (nodupb ab) eqn:N1; [|destruct I]. apply in_flat_map in I. destruct I as ((jx & ij & mi) & I2 & I). apply enum_in in I2.
        destruct (Nat.eqb_spec mi ma); cbn [negb] in I; [|destruct I]. destruct (list_eqb ab ij) eqn:E2; [destruct I|].
        destruct (list_eqb a' i && (jx <? j)) eqn:E3; [destruct I|]. destruct (nodupb ij) eqn:N2; [|destruct I]. destruct I as [<-|[]].
        assert (X1 : ab <> ij) by (intros C; apply list_eqb_ok in C; congruence).
        assert (X2 : a' = i -> j <= jx) by (intros C; apply list_eqb_ok in C; rewrite C in E3; cbn in E3; now apply Nat.ltb_ge in E3).
        exists jx, ij, mi. split; [exact I2|]. split; [reflexivity|]. split; [|auto]. apply cases_in. exists j, jx, ma, mi. apply nodupb_ok in N1, N2. repeat split; auto. }
      destruct (F j ab ma g E Ig) as (jx & ij & mi & E2 & -> & C1 & C2 & C3). destruct (F k ab' ma' h E' Ih) as (jx' & ij' & mi' & E2' & -> & D1 & D2 & D3).
      destruct (Q j jx k jx' ma mi ma' mi' ab ij ab' ij' E E2 E' E2' C1 D1 C2 D2 C3 A). lia.
Qed.
(** every spin-conserving excitation is there *)
Lemma gens_of_all norb g h : good norb g -> valid_gen norb h -> palike (spatial norb (fst h), spatial norb (snd h)) g ->
  exists k, In k (gens_of norb g) /\ alike k h.
Proof.
  assert (W : forall g h, good norb g -> valid_gen norb h -> Permutation (spatial norb (fst h)) (fst g) -> Permutation (spatial norb (snd h)) (snd g) ->
     exists k, In k (gens_of norb g) /\ alike k h).
  { clear. intros [a i] [A I] Gg V P1 P2. pose proof Gg as (Ba & Bi & L & N0 & Hp). pose proof V as ((BA & BI & NA & NI & D) & LA & Bt). cbn [fst snd] in *.
    unfold gens_of. cbn [fst snd]. destruct a as [|x [|y a]]; [contradiction| |].
    - destruct i as [|z [|z' i]]; cbn in L; try discriminate.
      pose proof (Permutation_length P1) as LP1. pose proof (Permutation_length P2) as LP2. unfold spatial in *. rewrite map_length in LP1, LP2.
      destruct A as [|X [|]]; try discriminate. destruct I as [|Z [|]]; try discriminate. cbn [map] in *.
      apply Permutation_length_1 in P1, P2. unfold below in *. inversion Ba; inversion Bi; inversion BA; inversion BI; subst.
      unfold beta in Bt. cbn [filter] in Bt.
      destruct (Nat.leb_spec norb X), (Nat.leb_spec norb Z); cbn in Bt; try lia.
      + exists ([X mod norb + norb], [Z mod norb + norb]). split; [right; left; reflexivity|].
        assert (E1 : X mod norb + norb = X). { replace X with ((X - norb) + 1 * norb) at 1 by lia. rewrite Nat.mod_add, Nat.mod_small by lia. lia. }
        assert (E2 : Z mod norb + norb = Z). { replace Z with ((Z - norb) + 1 * norb) at 1 by lia. rewrite Nat.mod_add, Nat.mod_small by lia. lia. }
        rewrite E1, E2. left. split; intros q; tauto.
      + exists ([X mod norb], [Z mod norb]). split; [left; reflexivity|]. rewrite !Nat.mod_small by lia. left. split; intros q; tauto.
    - set (a' := x :: y :: a) in *.
      destruct (sc_find norb a' A BA P1) as (ix & ab & ma & E1 & Q1). destruct (sc_find norb i I BI P2) as (jx & ij & mi & E2 & Q2).
      destruct (sc_row norb _ _ _ _ Ba E1) as (_ & S1 & M1). destruct (sc_row norb _ _ _ _ Bi E2) as (_ & S2 & M2).
      assert (N1 : NoDup ab) by (eapply Permutation_NoDup; [apply Permutation_sym; exact Q1 | exact NA]).
      assert (N2 : NoDup ij) by (eapply Permutation_NoDup; [apply Permutation_sym; exact Q2 | exact NI]).
      assert (Em : mi = ma) by (rewrite M1, M2, (beta_perm norb _ _ Q1), (beta_perm norb _ _ Q2); congruence).
      assert (N : ab <> ij). { intros C. apply D. rewrite <- C in Q2. intros q. split; intros Hq; [apply (Permutation_in _ Q2), (Permutation_in _ (Permutation_sym Q1)), Hq | apply (Permutation_in _ Q1), (Permutation_in _ (Permutation_sym Q2)), Hq]. }
      assert (PS : forall l l' : list nat, Permutation l l' -> same_set l l') by (intros l l' H q; split; [apply Permutation_in, H | apply Permutation_in, Permutation_sym, H]).
      destruct (list_eq_dec Nat.eq_dec a' i) as [E|NE].
      + clear S2. subst i. destruct (le_dec ix jx) as [J|J].
        * exists (ab, ij). split; [apply cases_in; exists ix, jx, ma, mi; repeat split; auto|]. left. cbn [fst snd]. auto.
        * exists (ij, ab). split; [apply cases_in; exists jx, ix, mi, ma; repeat split; auto; intros; lia|]. right. cbn [fst snd]. auto.
      + exists (ab, ij). split; [apply cases_in; exists ix, jx, ma, mi; repeat split; auto; contradiction|]. left. cbn [fst snd]. auto. }
  intros Gg V [[P1 P2]|[P1 P2]]; cbn [fst snd] in P1, P2; [now apply W|].
  destruct (W g (snd h, fst h) Gg) as (k & I & A); cbn [fst snd]; auto.
  - destruct V as ((B1 & B2 & N1 & N2 & D) & L & B). unfold valid_gen, sane. cbn [fst snd]. repeat split; auto. intros C. apply D. intros q. now symmetry.
  - exists k. split; [exact I|]. destruct A as [A|A]; [right|left]; exact A.
Qed.
