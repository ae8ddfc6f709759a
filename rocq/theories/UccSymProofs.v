(** The constructor of uccsd_sym1 and the operators with all singles and doubles. *)
From Coq Require Import List ZArith Arith Bool Lia Sorting.Permutation Sorting.Sorted.
From Verif Require Import Base BaseFacts PropFsucc UccModel UccProofs UccInit UccUniq UccSymModel UccSymFacts UccSymOrder.
Import ListNotations.

(** ** the loop of the constructor *)
Definition rows (norb : nat) (s2sym : bool) (k : nat) (g : gen) : list (list nat) :=
  match fst g with
  | [_] => if s2sym then [[k; S k]] else [[k]; [S k]]
  | _ => map (fun k => [k]) (seq k (length (cases norb (fst g) (snd g))))
  end.
Fixpoint tab (norb : nat) (s2sym : bool) (k : nat) (l : list gen) : list (list nat) :=
  match l with [] => [] | g :: l => rows norb s2sym k g ++ tab norb s2sym (k + length (gens_of norb g)) l end.
Definition shaped (g : gen) : Prop := length (fst g) = length (snd g) /\ fst g <> [].
Lemma build_ok norb s l : Forall shaped l -> forall gens st,
  build norb s l gens st = Ok (gens ++ flat_map (gens_of norb) l, st ++ tab norb s (length gens) l).
Proof.
  induction 1 as [|[a i] l (L & N) Hl IH]; intros gens st; cbn [build flat_map tab]; [now rewrite !app_nil_r|]. cbn [fst snd] in *.
  apply Nat.eqb_eq in L. rewrite L. cbn [py_assert]. destruct a as [|x [|y a]]; [contradiction| |].
  - rewrite IH, !app_length. cbn [gens_of rows fst snd length]. rewrite <- !app_assoc. reflexivity.
  - rewrite IH, !app_length. cbn [gens_of rows fst snd]. rewrite <- !app_assoc. reflexivity.
Qed.
Lemma build_inv norb s l : forall gens st r, build norb s l gens st = Ok r -> Forall shaped l.
Proof.
  induction l as [|[a i] l IH]; intros gens st r H; [constructor|]. cbn [build] in H.
  destruct (length a =? length i) eqn:L; cbn [py_assert] in H; [|discriminate]. apply Nat.eqb_eq in L.
  destruct a as [|x [|y a]]; [discriminate| |]; (constructor; [split; [exact L|discriminate]|]); eapply IH; exact H.
Qed.
Lemma rows_concat norb s k g : concat (rows norb s k g) = seq k (length (gens_of norb g)).
Proof.
  assert (E : forall c k, concat (map (fun k => [k]) (seq k c)) = seq k c) by (induction c as [|c IH]; intros j; cbn; [reflexivity|now rewrite IH]).
  unfold rows, gens_of. destruct (fst g) as [|x [|y a]]; [apply E| |apply E]. destruct s; reflexivity.
Qed.
Lemma tab_concat norb s l : forall k, concat (tab norb s k l) = seq k (length (flat_map (gens_of norb) l)).
Proof.
  induction l as [|g l IH]; intros k; [reflexivity|]. cbn [tab flat_map]. rewrite concat_app, rows_concat, IH, app_length. symmetry. apply seq_app.
Qed.
Lemma tab_ne norb s l : forall k, Forall (fun r => r <> []) (tab norb s k l).
Proof.
  induction l as [|g l IH]; intros k; [constructor|]. cbn [tab]. apply Forall_app. split; [|apply IH].
  assert (E : forall c k, Forall (fun r => r <> []) (map (fun k => [k]) (seq k c))) by (induction c as [|c IHc]; intros j; constructor; [discriminate|apply IHc]).
  unfold rows. destruct (fst g) as [|x [|y a]]; [apply E| |apply E]. destruct s; repeat constructor; discriminate.
Qed.
Lemma gens_of_len norb g h : shaped g -> In h (gens_of norb g) -> length (fst h) = length (snd h).
Proof.
  destruct g as [a i]. intros (L & N) I. unfold gens_of in I. cbn [fst snd] in *.
  assert (C : In h (cases norb a i) -> length (fst h) = length (snd h)).
  { destruct h as [ab ij]. intros J. apply cases_in in J. destruct J as (ix & jx & ma & mi & E1 & E2 & _). apply nth_error_In, sc_in in E1. apply nth_error_In, sc_in in E2.
    destruct E1 as (s & L1 & -> & _). destruct E2 as (s' & L2 & -> & _). cbn [fst snd]. now rewrite !put_len. }
  destruct a as [|x [|y a]]; [contradiction| |now apply C].
  destruct I as [<-|[<-|[]]]; cbn [fst snd]; [exact L|]. now rewrite !map_length.
Qed.

Section T.
Variable T : Type.
Variable t0 : T.
Notation init1 := (init1 T t0).
Notation uop := (uop T).
Lemma init1_inv norb s aa ii u st : init1 norb s aa ii = Ok (u, st) ->
  Forall shaped (combine aa ii) /\ u = mkU T (2 * norb) (flat_map (gens_of norb) (combine aa ii)) (repeat t0 (length (flat_map (gens_of norb) (combine aa ii)))) /\
  st = tab norb s 0 (combine aa ii) /\ Forall (valid_gen norb) (u_gens T u) /\ unalike (u_gens T u).
Proof.
  unfold init1. destruct (build norb s (combine aa ii) [] []) as [b|e] eqn:B; cbn [bind]; [|discriminate].
  pose proof (build_inv _ _ _ _ _ _ B) as Sh. rewrite (build_ok norb s _ Sh) in B. cbn [app length] in B. injection B as <-. cbn [fst snd].
  pose proof (sanity_ok (2 * norb) (flat_map (gens_of norb) (combine aa ii))) as S.
  destruct (assert_sanity (2 * norb) (flat_map (gens_of norb) (combine aa ii))) as [[]|e]; cbn [bind]; [|discriminate].
  destruct (proj1 S eq_refl) as [S1 S2]. destruct (forallb _ _) eqn:F; cbn [py_assert]; [|discriminate]. intros E. injection E as <- <-. cbn [u_gens].
  split; [exact Sh|]. split; [reflexivity|]. split; [reflexivity|]. split; [|exact S2].
  rewrite Forall_forall in *. intros h I. pose proof (S1 h I) as V. split; [exact V|]. split.
  - apply in_flat_map in I. destruct I as (g & Ig & I). eapply gens_of_len; [exact (Sh g Ig)|exact I].
  - rewrite forallb_forall in F. specialize (F h I). apply Nat.eqb_eq in F. destruct V as (B1 & B2 & _). now rewrite !nbeta_beta in F.
Qed.
Lemma FOP_in {A} (R : A -> A -> Prop) l x y : ForallOrdPairs R l -> In x l -> In y l -> x = y \/ R x y \/ R y x.
Proof. intros F Ix Iy. now apply (ForallOrdPairs_In F). Qed.
Lemma good_unalike norb l : Forall (good norb) l -> ForallOrdPairs (fun g h => ~ palike g h) l -> unalike (flat_map (gens_of norb) l).
Proof.
  intros G F. rewrite Forall_forall in G. apply FOP_flat_map.
  - intros g I. apply gens_of_unalike. now apply G.
  - apply (FOP_impl (fun g h => ~ palike g h)); [|exact F]. intros g g' Ig Ig' N h h' Ih Ih'. apply (gens_of_cross norb g g'); auto.
Qed.
Lemma init1_ok norb s aa ii : Forall (good norb) (combine aa ii) -> ForallOrdPairs (fun g h => ~ palike g h) (combine aa ii) ->
  init1 norb s aa ii = Ok (mkU T (2 * norb) (flat_map (gens_of norb) (combine aa ii)) (repeat t0 (length (flat_map (gens_of norb) (combine aa ii)))), tab norb s 0 (combine aa ii)).
Proof.
  intros G F. unfold init1. rewrite build_ok.
  2:{ rewrite Forall_forall in *. intros g I. destruct (G g I) as (_ & _ & L & N & _). now split. }
  cbn [bind app fst snd length]. assert (V : Forall (valid_gen norb) (flat_map (gens_of norb) (combine aa ii))).
  { rewrite Forall_forall in *. intros h I. apply in_flat_map in I. destruct I as (g & Ig & I). now apply (gens_of_in norb g h (G g Ig)) in I. }
  rewrite (proj2 (sanity_ok (2 * norb) _)).
  - cbn [bind]. assert (E : forallb (fun g => nbeta norb (fst g) =? nbeta norb (snd g)) (flat_map (gens_of norb) (combine aa ii)) = true).
    { apply forallb_forall. rewrite Forall_forall in V. intros h I. destruct (V h I) as ((B1 & B2 & _) & _ & B). apply Nat.eqb_eq. now rewrite !nbeta_beta. }
    rewrite E. reflexivity.
  - split; [|now apply good_unalike]. rewrite Forall_forall in *. intros h I. now apply V.
Qed.

(** ** unique amplitudes *)
Lemma fold_upd_seq (v : T) c : forall k amps, k + c <= length amps ->
  fold_left (fun amps k => upd k (fun _ => v) amps) (seq k c) amps = firstn k amps ++ repeat v c ++ skipn (k + c) amps.
Proof.
  induction c as [|c IH]; intros k amps L; cbn [seq fold_left repeat app].
  - rewrite Nat.add_0_r. symmetry. apply firstn_skipn.
  - rewrite IH by (rewrite upd_len; lia). assert (E : forall k (amps : list T), k < length amps -> upd k (fun _ => v) amps = firstn k amps ++ v :: skipn (S k) amps).
    { clear. induction k as [|k IH]; intros [|x amps] L; cbn [length] in L; try lia; [reflexivity|]. cbn [upd firstn app]. change (skipn (S (S k)) (x :: amps)) with (skipn (S k) amps). now rewrite IH by lia. }
    rewrite (E k amps) by lia. replace (S k + c) with (k + S c) by lia.
    assert (Lk : length (firstn k amps) = k) by (rewrite firstn_length; lia).
    rewrite firstn_app, Lk. replace (S k - k) with 1 by lia. rewrite (firstn_all2 (n := S k) (firstn k amps)) by lia. cbn [firstn]. rewrite <- app_assoc. cbn [app]. f_equal. f_equal. f_equal.
    rewrite skipn_app, Lk. rewrite skipn_all2 by lia. cbn [app]. replace (k + S c - k) with (S c) by lia. cbn [skipn].
    assert (SS : forall a b (l : list T), skipn a (skipn b l) = skipn (a + b) l) by (clear; intros a b; revert a; induction b as [|b IHb]; intros a [|x l]; rewrite ?Nat.add_0_r; try reflexivity; [now rewrite !skipn_nil|]; rewrite Nat.add_succ_r; cbn [skipn]; apply IHb).
    change (match amps with [] => [] | _ :: l => skipn k l end) with (skipn (S k) amps). rewrite SS. f_equal. lia.
Qed.
Lemma set_uniq_app a b : forall (x y amps : list T), length a = length x -> set_uniq T (a ++ b) (x ++ y) amps = set_uniq T b y (set_uniq T a x amps).
Proof. induction a as [|r a IH]; intros [|v x] y amps L; try discriminate; [reflexivity|]. cbn [app set_uniq]. apply IH. cbn in L. lia. Qed.
Lemma set_uniq_same st (v : T) : forall amps, set_uniq T st (repeat v (length st)) amps = fold_left (fun amps k => upd k (fun _ => v) amps) (concat st) amps.
Proof. induction st as [|r st IH]; intros amps; [reflexivity|]. cbn [length repeat set_uniq concat]. now rewrite IH, fold_left_app. Qed.
Lemma set_uniq_tab norb s (l : list (gen * T)) : forall k amps, k + length (flat_map (gens_of norb) (map fst l)) <= length amps ->
  set_uniq T (tab norb s k (map fst l)) (flat_map (fun x => repeat (snd x) (length (rows norb s 0 (fst x)))) l) amps =
  firstn k amps ++ flat_map (fun x => repeat (snd x) (length (gens_of norb (fst x)))) l ++ skipn (k + length (flat_map (gens_of norb) (map fst l))) amps.
Proof.
  assert (RL : forall k g, length (rows norb s k g) = length (rows norb s 0 g)).
  { intros k g. unfold rows. destruct (fst g) as [|x [|y a]]; [now rewrite !map_length, !seq_length| |now rewrite !map_length, !seq_length]. now destruct s. }
  induction l as [|[g v] l IH]; intros k amps L; cbn [map flat_map tab fst snd length app] in *.
  - cbn [set_uniq]. rewrite Nat.add_0_r. symmetry. apply firstn_skipn.
  - rewrite app_length in L. rewrite set_uniq_app by (rewrite repeat_length; apply RL). rewrite <- (RL k g), set_uniq_same, rows_concat, fold_upd_seq by lia.
    set (c := length (gens_of norb g)) in *. set (amps' := firstn k amps ++ repeat v c ++ skipn (k + c) amps).
    assert (Lk : length (firstn k amps) = k) by (rewrite firstn_length; lia).
    assert (L' : length amps' = length amps) by (unfold amps'; rewrite !app_length, Lk, repeat_length, skipn_length; lia).
    rewrite IH by (rewrite L'; lia). rewrite app_length. fold c.
    assert (E1 : firstn (k + c) amps' = firstn k amps ++ repeat v c).
    { unfold amps'. rewrite app_assoc, firstn_app, app_length, Lk, repeat_length, Nat.sub_diag. cbn [firstn]. rewrite app_nil_r. apply firstn_all2. rewrite app_length, Lk, repeat_length. lia. }
    assert (E2 : forall j, skipn (k + c + j) amps' = skipn (k + c + j) amps).
    { intros j. unfold amps'. rewrite app_assoc, skipn_app, app_length, Lk, repeat_length. rewrite skipn_all2 by (rewrite app_length, Lk, repeat_length; lia). cbn [app].
      replace (k + c + j - (k + c)) with j by lia. assert (SS : forall a b (l : list T), skipn a (skipn b l) = skipn (a + b) l) by (clear; intros a b; revert a; induction b as [|b IHb]; intros a [|x l]; rewrite ?Nat.add_0_r; try reflexivity; [now rewrite !skipn_nil|]; rewrite Nat.add_succ_r; cbn [skipn]; apply IHb).
      rewrite SS. f_equal. lia. }
    rewrite E1, E2, Nat.add_assoc, <- !app_assoc. reflexivity.
Qed.
Lemma fold_upd_other (v : T) row j : ~ In j row -> forall l, nth_error (fold_left (fun amps k => upd k (fun _ => v) amps) row l) j = nth_error l j.
Proof.
  induction row as [|k row IH]; intros N l; cbn [fold_left]; [reflexivity|]. rewrite IH by (intros C; apply N; now right).
  apply nth_error_upd_neq. intros ->. apply N. now left.
Qed.
Lemma fold_upd_hit (v : T) row j : In j row -> forall l, j < length l -> nth_error (fold_left (fun amps k => upd k (fun _ => v) amps) row l) j = Some v.
Proof.
  intros I. assert (D : forall row l, (In j row \/ nth_error l j = Some v) -> j < length l -> nth_error (fold_left (fun amps k => upd k (fun _ => v) amps) row l) j = Some v).
  { clear. induction row as [|k row IH]; intros l H L; cbn [fold_left]; [destruct H as [[]|H]; exact H|]. apply IH; [|now rewrite upd_len].
    destruct (Nat.eq_dec k j) as [->|N].
    - right. rewrite nth_error_upd_eq. destruct (nth_error l j) eqn:E; [reflexivity|]. apply nth_error_None in E. lia.
    - destruct H as [[H|H]|H]; [contradiction|now left|right]. rewrite nth_error_upd_neq by congruence. exact H. }
  intros l L. apply D; auto.
Qed.
Lemma set_uniq_other st : forall (x amps : list T) k, ~ In k (concat st) -> nth_error (set_uniq T st x amps) k = nth_error amps k.
Proof.
  induction st as [|row st IH]; intros [|v x] amps k N; try reflexivity. cbn [set_uniq concat] in *. rewrite in_app_iff in N.
  rewrite IH by tauto. apply fold_upd_other. tauto.
Qed.
Lemma set_uniq_hit st : NoDup (concat st) -> forall (x amps : list T) j row k v, nth_error st j = Some row -> In k row -> nth_error x j = Some v -> k < length amps ->
  nth_error (set_uniq T st x amps) k = Some v.
Proof.
  induction st as [|r st IH]; intros ND x amps j row k v Er Ik Ex L; [destruct j; discriminate|]. destruct x as [|w x]; [destruct j; discriminate|].
  cbn [concat] in ND. cbn [set_uniq]. destruct j as [|j]; cbn in Er, Ex.
  - injection Er as ->. injection Ex as ->. rewrite set_uniq_other.
    + now apply fold_upd_hit.
    + clear - ND Ik. induction row as [|y row IHr]; [destruct Ik|]. cbn in ND. inversion ND; subst. destruct Ik as [->|Ik]; [intros C; rewrite in_app_iff in *; tauto|now apply IHr].
  - apply (IH ltac:(clear - ND; induction r as [|y r IHr]; [exact ND|inversion ND; auto]) x _ j row k v Er Ik Ex). now rewrite row_len.
Qed.
End T.

(** ** operators with all singles and doubles *)
Definition pair_lt (x y : nat * nat) : Prop := fst x < fst y \/ (fst x = fst y /\ snd x < snd y).
Lemma tril_strict_in norb p q : In (p, q) (tril_strict norb) <-> q < p < norb.
Proof.
  unfold tril_strict. rewrite in_flat_map. split.
  - intros (x & I & J). apply in_map_iff in J. destruct J as (y & E & J). injection E as -> ->. apply in_seq in I, J. lia.
  - intros H. exists p. split; [apply in_seq; lia|]. apply in_map_iff. exists q. split; [reflexivity|]. apply in_seq. lia.
Qed.
Lemma tril_in norb p q : In (p, q) (tril norb) <-> q <= p < norb.
Proof.
  unfold tril. rewrite in_flat_map. split.
  - intros (x & I & J). apply in_map_iff in J. destruct J as (y & E & J). injection E as -> ->. apply in_seq in I. apply in_seq in J. lia.
  - intros H. exists p. split; [apply in_seq; lia|]. apply in_map_iff. exists q. split; [reflexivity|]. apply in_seq. lia.
Qed.
Lemma seq_FOP c : forall b, ForallOrdPairs lt (seq b c).
Proof. induction c as [|c IH]; intros b; cbn [seq]; constructor; [|apply IH]. apply Forall_forall. intros x I. apply in_seq in I. lia. Qed.
Lemma FOP_map {A B} (R : B -> B -> Prop) (f : A -> B) l : ForallOrdPairs (fun x y => R (f x) (f y)) l -> ForallOrdPairs R (map f l).
Proof.
  induction 1 as [|x l Hx Hl IH]; cbn [map]; constructor; [|exact IH]. rewrite Forall_forall in *. intros y I. apply in_map_iff in I. destruct I as (z & <- & I). now apply Hx.
Qed.
Lemma triangle_FOP (f : nat -> nat) norb : ForallOrdPairs pair_lt (flat_map (fun p => map (fun q => (p, q)) (seq 0 (f p))) (seq 0 norb)).
Proof.
  apply FOP_flat_map.
  - intros p _. apply FOP_map. apply (FOP_impl lt); [|apply seq_FOP]. intros x y _ _ L. right. cbn. auto.
  - apply (FOP_impl lt); [|apply seq_FOP]. intros x y _ _ L g h Ig Ih. apply in_map_iff in Ig, Ih. destruct Ig as (? & <- & _). destruct Ih as (? & <- & _). now left.
Qed.
Lemma filter_FOP {A} (R : A -> A -> Prop) (f : A -> bool) l : ForallOrdPairs R l -> ForallOrdPairs R (filter f l).
Proof.
  induction 1 as [|x l Hx Hl IH]; [constructor|]. cbn [filter]. destruct (f x); [|exact IH]. constructor; [|exact IH].
  rewrite Forall_forall in *. intros y I. apply filter_In in I. now apply Hx.
Qed.
Lemma cwr_in {A} (l : list A) x y : In (x, y) (cwr l) -> In x l /\ In y l.
Proof.
  induction l as [|z l IH]; [intros []|]. cbn [cwr]. rewrite in_app_iff, in_map_iff. intros [(w & E & I)|I].
  - injection E as -> ->. split; [now left|exact I].
  - apply IH in I. split; right; tauto.
Qed.
Lemma cwr_all {A} (l : list A) x y : In x l -> In y l -> In (x, y) (cwr l) \/ In (y, x) (cwr l).
Proof.
  induction l as [|z l IH]; [intros []|]. cbn [cwr]. rewrite !in_app_iff, !in_map_iff. intros [->|Ix] [->|Iy].
  - left. left. exists y. split; [reflexivity|now left].
  - left. left. exists y. split; [reflexivity|now right].
  - right. left. exists x. split; [reflexivity|now right].
  - destruct (IH Ix Iy); tauto.
Qed.
Lemma cwr_FOP {A} (R : A -> A -> Prop) (l : list A) : ForallOrdPairs R l ->
  ForallOrdPairs (fun g h => In (fst g) l /\ In (snd g) l /\ In (fst h) l /\ In (snd h) l /\ (R (fst g) (fst h) /\ R (fst g) (snd h) \/ fst g = fst h /\ R (snd g) (snd h) /\ R (fst g) (snd h))) (cwr l).
Proof.
  induction 1 as [|x l Hx Hl IH]; [constructor|]. rewrite Forall_forall in Hx. cbn [cwr]. apply FOP_app.
  - cbn [map]. constructor.
    + apply Forall_forall. intros g I. apply in_map_iff in I. destruct I as (y & <- & I). cbn [fst snd]. repeat (split; [cbn; auto|]). right. auto.
    + apply FOP_map. apply (FOP_impl R); [|exact Hl]. intros y z Iy Iz Rz. cbn [fst snd]. repeat (split; [cbn; auto|]). right. auto.
  - apply (FOP_impl _ _ _ (fun g h _ _ H => match H with conj a (conj b (conj c (conj d e))) => conj (or_intror a) (conj (or_intror b) (conj (or_intror c) (conj (or_intror d) e))) end)). exact IH.
  - intros g [z w] I1 I2. apply in_map_iff in I1. destruct I1 as (y & <- & I1). apply cwr_in in I2. destruct I2 as [I2 I3]. cbn [fst snd].
    split; [now left|]. split; [exact I1|]. split; [now right|]. split; [now right|]. left. auto.
Qed.

Definition single (x : nat * nat) : gen := ([fst x], [snd x]).
Definition pat (g : gen) : list Z := map Z.of_nat (length (fst g) :: fst g ++ snd g).
Notation two_of norb := (cwr (map (fun x => [fst x; snd x]) (tril norb))).
Definition all_of (norb : nat) : list gen := map single (tril_strict norb) ++ two_of norb.
Lemma single_good norb x : In x (tril_strict norb) -> good norb (single x).
Proof.
  destruct x as [p q]. intros I. apply tril_strict_in in I. unfold good, single, below. cbn [fst snd]. split; [repeat constructor; lia|]. split; [repeat constructor; lia|].
  split; [reflexivity|]. split; [discriminate|]. intros P. apply Permutation_length_1 in P. lia.
Qed.
Lemma two_perm p q r s : q <= p -> s <= r -> Permutation [p; q] [r; s] -> p = r /\ q = s.
Proof.
  intros H1 H2 P. assert (S : p + q = r + s /\ (p = r \/ p = s)).
  { split.
    - assert (Q : forall l l', Permutation l l' -> list_sum l = list_sum l') by (clear; unfold list_sum; induction 1; cbn [fold_right]; lia). apply Q in P. unfold list_sum in P. cbn [fold_right] in P. lia.
    - apply (Permutation_in p) in P; [|now left]. destruct P as [E|[E|[]]]; auto. }
  lia.
Qed.
Lemma two_good norb g : In g (two_of norb) -> good norb g.
Proof.
  destruct g as [ab ij]. intros I. apply cwr_in in I. destruct I as [I J]. apply in_map_iff in I, J. destruct I as ((p & q) & <- & I). destruct J as ((r & s) & <- & J).
  apply tril_in in I, J. unfold good, below. cbn [fst snd length]. split; [repeat constructor; lia|]. split; [repeat constructor; lia|]. split; [reflexivity|]. split; [discriminate|].
  intros P. apply two_perm in P; [|lia|lia]. destruct P as [-> ->]. split; [reflexivity|lia].
Qed.
Lemma singles_unalike norb f : ForallOrdPairs (fun g h => ~ palike g h) (map single (filter f (tril_strict norb))).
Proof.
  apply FOP_map. apply (FOP_impl pair_lt).
  - intros [p q] [r s] Ix Iy L. apply filter_In in Ix, Iy. destruct Ix as [Ix _], Iy as [Iy _]. apply tril_strict_in in Ix, Iy. unfold palike, single. cbn [fst snd] in *. unfold pair_lt in L. cbn [fst snd] in L.
    intros [[P1 P2]|[P1 P2]]; apply Permutation_length_1 in P1, P2; lia.
  - apply filter_FOP. apply (triangle_FOP (fun p => p)).
Qed.
Lemma lexcmp_app a : forall b c d, length a = length b -> lexcmp (a ++ c) (b ++ d) = match lexcmp a b with Eq => lexcmp c d | o => o end.
Proof.
  induction a as [|x a IH]; intros [|y b] c d L; try discriminate; [reflexivity|]. cbn [app lexcmp]. destruct (x ?= y)%Z; try reflexivity. apply IH. now injection L.
Qed.
Lemma pair_lex p q r s : pair_lt (p, q) (r, s) <-> lexcmp (map Z.of_nat [p; q]) (map Z.of_nat [r; s]) = Lt.
Proof.
  unfold pair_lt. cbn [fst snd map lexcmp]. destruct (Z.compare_spec (Z.of_nat p) (Z.of_nat r)); [|split; [reflexivity|intros _; left; lia]|split; [lia|discriminate]].
  destruct (Z.compare_spec (Z.of_nat q) (Z.of_nat s)); split; try reflexivity; try discriminate; lia.
Qed.
Definition plt (x y : list nat) : Prop := lexcmp (map Z.of_nat x) (map Z.of_nat y) = Lt.
Lemma two_FOP norb : ForallOrdPairs (fun g h => ~ palike g h /\ lexcmp (pat g) (pat h) = Lt) (two_of norb).
Proof.
  assert (F : ForallOrdPairs plt (map (fun x => [fst x; snd x]) (tril norb))).
  { apply FOP_map. apply (FOP_impl pair_lt); [|apply (triangle_FOP S)]. intros [p q] [r s] _ _ L. now apply pair_lex. }
  apply cwr_FOP in F. apply (FOP_impl _ _ _ (fun g h _ _ (H : _) => H)) in F. apply (FOP_impl _ _ _) with (2 := F). intros [a b] [c d] _ _ (I1 & I2 & I3 & I4 & H).
  cbn [fst snd] in *. apply in_map_iff in I1, I2, I3, I4. destruct I1 as ((p1 & q1) & <- & I1), I2 as ((p2 & q2) & <- & I2), I3 as ((p3 & q3) & <- & I3), I4 as ((p4 & q4) & <- & I4).
  apply tril_in in I1, I2, I3, I4. cbn [fst snd] in *. unfold plt in H. rewrite <- !pair_lex in H.
  assert (E : [p1; q1] = [p3; q3] -> p1 = p3 /\ q1 = q3) by (intros E; injection E; auto).
  split.
  - unfold palike. cbn [fst snd]. intros [[P1 P2]|[P1 P2]]; apply two_perm in P1; try lia; apply two_perm in P2; try lia; unfold pair_lt in H; cbn [fst snd] in H; destruct P1, P2; subst.
    + destruct H as [[H _]|[_ [H _]]]; lia.
    + destruct H as [[_ H]|[_ [_ H]]]; lia.
  - unfold pat. cbn [fst snd length]. change (map Z.of_nat (2 :: [p1; q1] ++ [p2; q2])) with (Z.of_nat 2 :: map Z.of_nat [p1; q1] ++ map Z.of_nat [p2; q2]).
    change (map Z.of_nat (2 :: [p3; q3] ++ [p4; q4])) with (Z.of_nat 2 :: map Z.of_nat [p3; q3] ++ map Z.of_nat [p4; q4]).
    cbn [lexcmp]. rewrite Z.compare_refl, lexcmp_app by reflexivity. destruct H as [[H _]|[H [H2 _]]].
    + apply pair_lex in H. now rewrite H.
    + destruct (E H) as [-> ->]. rewrite lexcmp_refl. now apply pair_lex.
Qed.
Lemma all_good norb : Forall (good norb) (all_of norb).
Proof.
  apply Forall_app. split; apply Forall_forall.
  - intros g I. apply in_map_iff in I. destruct I as (x & <- & I). now apply single_good.
  - intros g. apply two_good.
Qed.
Lemma all_FOP norb : ForallOrdPairs (fun g h => ~ palike g h /\ lexcmp (pat g) (pat h) = Lt) (all_of norb).
Proof.
  apply FOP_app; [|apply two_FOP|].
  - pose proof (singles_unalike norb (fun _ => true)) as U. assert (E : filter (fun _ => true) (tril_strict norb) = tril_strict norb) by (clear; induction (tril_strict norb) as [|x l IH]; cbn; congruence).
    rewrite E in U. clear E. apply FOP_map. apply (FOP_impl pair_lt); [|apply (triangle_FOP (fun p => p))]. intros [p q] [r s] Ix Iy L. split.
    + apply tril_strict_in in Ix, Iy. unfold palike, single. cbn [fst snd] in *. unfold pair_lt in L. cbn [fst snd] in L.
      intros [[P1 P2]|[P1 P2]]; apply Permutation_length_1 in P1, P2; lia.
    + unfold pat, single. cbn [fst snd length app map]. cbn [lexcmp]. rewrite Z.compare_refl. now apply pair_lex in L.
  - intros g [ab ij] I1 I2. apply in_map_iff in I1. destruct I1 as (x & <- & I1). apply cwr_in in I2. destruct I2 as [I2 I3]. apply in_map_iff in I2. destruct I2 as (y & <- & I2).
    split; [|reflexivity]. unfold palike, single. cbn [fst snd]. apply in_map_iff in I3. destruct I3 as (z & <- & I3). intros [[P _]|[P _]]; apply Permutation_length in P; discriminate.
Qed.
(** every number- and spin-conserving single or double is a spin case of a member *)
Lemma all_covers norb h : valid_gen norb h -> length (fst h) = 1 \/ length (fst h) = 2 ->
  exists g, In g (all_of norb) /\ palike (spatial norb (fst h), spatial norb (snd h)) g.
Proof.
  destruct h as [A I]. intros ((B1 & B2 & N1 & N2 & D) & L & Bt) H. cbn [fst snd] in *.
  destruct H as [H|H]; rewrite H in L.
  - destruct A as [|P [|]]; try discriminate. destruct I as [|Q [|]]; try discriminate. unfold spatial. cbn [map]. unfold below in *. inversion B1; inversion B2; subst.
    assert (Nn : norb <> 0) by lia. pose proof (Nat.mod_upper_bound P norb Nn). pose proof (Nat.mod_upper_bound Q norb Nn).
    assert (NE : P mod norb <> Q mod norb).
    { intros E. apply D. assert (P = Q); [|subst; intros q; tauto]. unfold beta in Bt. cbn [filter] in Bt.
      assert (F : forall x, x < 2 * norb -> x = if norb <=? x then x mod norb + norb else x mod norb).
      { intros x Hx. destruct (Nat.leb_spec norb x); [|now rewrite Nat.mod_small]. replace x with ((x - norb) + 1 * norb) at 2 by lia. rewrite Nat.mod_add, Nat.mod_small by lia. lia. }
      rewrite (F P), (F Q) by assumption. destruct (norb <=? P), (norb <=? Q); cbn in Bt; try discriminate; congruence. }
    destruct (lt_dec (Q mod norb) (P mod norb)).
    + exists (single (P mod norb, Q mod norb)). split; [|left; split; reflexivity]. apply in_app_iff. left. apply in_map. apply tril_strict_in. lia.
    + exists (single (Q mod norb, P mod norb)). split; [|right; split; reflexivity]. apply in_app_iff. left. apply in_map. apply tril_strict_in. lia.
  - destruct A as [|P1 [|P2 [|]]]; try discriminate. destruct I as [|Q1 [|Q2 [|]]]; try discriminate. unfold spatial. cbn [map]. unfold below in *.
    assert (Nn : norb <> 0) by (inversion B1; lia).
    assert (S : forall x y, exists z, In z (tril norb) /\ Permutation [x mod norb; y mod norb] [fst z; snd z]).
    { intros x y. pose proof (Nat.mod_upper_bound x norb Nn). pose proof (Nat.mod_upper_bound y norb Nn). destruct (le_dec (y mod norb) (x mod norb)).
      - exists (x mod norb, y mod norb). split; [apply tril_in; lia|reflexivity].
      - exists (y mod norb, x mod norb). split; [apply tril_in; lia|apply perm_swap]. }
    destruct (S P1 P2) as (z & Iz & Ez). destruct (S Q1 Q2) as (w & Iw & Ew).
    apply (in_map (fun x => [fst x; snd x])) in Iz, Iw. destruct (cwr_all _ _ _ Iz Iw) as [C|C].
    + eexists. split; [apply in_app_iff; right; exact C|]. left. split; assumption.
    + eexists. split; [apply in_app_iff; right; exact C|]. right. split; assumption.
Qed.
Lemma combine_all (f g : nat * nat -> list nat) l (two : list gen) :
  combine (map f l ++ map fst two) (map g l ++ map snd two) = map (fun x => (f x, g x)) l ++ two.
Proof.
  induction l as [|x l IH]; cbn [map app combine].
  - induction two as [|[a b] two IH]; cbn; [reflexivity|now rewrite IH].
  - now rewrite IH.
Qed.
Lemma combine_map2 {A B C} (f : A -> B) (g : A -> C) l : combine (map f l) (map g l) = map (fun x => (f x, g x)) l.
Proof. induction l as [|x l IH]; cbn; [reflexivity|now rewrite IH]. Qed.
Lemma filter_id {A} (l : list A) : filter (fun _ => true) l = l.
Proof. induction l as [|x l IH]; cbn; congruence. Qed.
