(** The selection rule as reachability by electron moves. *)
From Coq Require Import List ZArith Lia Bool Arith.
From Verif Require Import Base BaseFacts SCModel SCSpec.
Import ListNotations.
Local Open Scope Z_scope.

(** sums over pairs *)
Definition psum (g : (Z * Z) * (Z * Z) -> Z) (a b : occ) : Z := sumZ (map g (combine a b)).
Definition gdiff (al : bool) (p : (Z * Z) * (Z * Z)) : Z := electrons al (fst p) - electrons al (snd p).
Definition gabs (al : bool) (p : (Z * Z) * (Z * Z)) : Z := Z.abs (gdiff al p).

Lemma sc_sums_eq bra ket :
  sc_sums bra ket = (psum (gdiff true) bra ket, psum (gdiff false) bra ket,
                     psum (gabs true) bra ket + psum (gabs false) bra ket).
Proof.
  unfold sc_sums, psum.
  assert (G : forall l sa sb d, fold_left sc_acc l (sa, sb, d) =
    (sa + sumZ (map (gdiff true) l), sb + sumZ (map (gdiff false) l),
     d + (sumZ (map (gabs true) l) + sumZ (map (gabs false) l)))).
  { induction l as [|[[ba bb] [ka kb]] l IH]; intros sa sb d; cbn [fold_left map sumZ].
    - f_equal; [f_equal; lia|lia].
    - cbn [sc_acc]. rewrite IH. unfold gabs, gdiff. cbn [electrons fst snd].
      f_equal; [f_equal; lia|lia]. }
  rewrite G. reflexivity.
Qed.

Lemma coupled_iff bra ket : is_interaction_coupled bra ket = true <->
  psum (gdiff true) bra ket = 0 /\ psum (gdiff false) bra ket = 0 /\
  psum (gabs true) bra ket + psum (gabs false) bra ket <= 4.
Proof.
  unfold is_interaction_coupled. rewrite sc_sums_eq, !andb_true_iff, !Z.eqb_eq, Z.leb_le. tauto.
Qed.

Lemma psum_upd g f : forall b o i x y, nth_error b i = Some y -> nth_error o i = Some x ->
  psum g b (upd i f o) = psum g b o - g (y, x) + g (y, f x).
Proof.
  unfold psum. induction b as [|y0 b IH]; intros o i x y Hy Hx; [destruct i; discriminate|].
  destruct o as [|x0 o]; [destruct i; discriminate|]. destruct i as [|i]; cbn in Hy, Hx.
  - injection Hy as ->. injection Hx as ->. cbn. lia.
  - cbn [upd combine map sumZ]. rewrite (IH o i x y Hy Hx). lia.
Qed.

Lemma psum_swap g g' a : (forall p, g' (snd p, fst p) = g p) -> forall b, psum g' b a = psum g a b.
Proof.
  intros H. unfold psum. induction a as [|x a IH]; intros [|y b]; cbn; auto. rewrite IH, <- (H (x, y)). auto.
Qed.

Lemma psum_opp al a : forall b, psum (gdiff al) b a = - psum (gdiff al) a b.
Proof.
  unfold psum. induction a as [|x a IH]; intros [|y b]; cbn [combine map sumZ]; auto.
  rewrite IH. unfold gdiff. cbn [fst snd]. lia.
Qed.

Lemma psum_gabs_sym al a b : psum (gabs al) b a = psum (gabs al) a b.
Proof. apply psum_swap. intros [x y]. unfold gabs, gdiff. cbn [fst snd]. lia. Qed.

Lemma coupled_sym bra ket : is_interaction_coupled bra ket = is_interaction_coupled ket bra.
Proof.
  apply eq_true_iff_eq. rewrite !coupled_iff, (psum_opp true bra ket), (psum_opp false bra ket),
    (psum_gabs_sym true bra ket), (psum_gabs_sym false bra ket). lia.
Qed.

Lemma psum_abs_nonneg al a b : 0 <= psum (gabs al) a b.
Proof. unfold psum. apply sumZ_nonneg. apply Forall_forall. intros z Hz. apply in_map_iff in Hz as (p & <- & _). unfold gabs. lia. Qed.

(** parity: the sum of absolute differences has the parity of the sum of differences *)
Lemma psum_parity al a : forall b, Z.even (psum (gabs al) a b) = Z.even (psum (gdiff al) a b).
Proof.
  unfold psum. induction a as [|x a IH]; intros [|y b]; cbn [combine map sumZ]; auto.
  rewrite !Z.even_add, IH. f_equal. unfold gabs. destruct (Z.abs_eq_or_opp (gdiff al (x, y))) as [->| ->]; auto.
  apply Z.even_opp.
Qed.

Lemma nth_error_combine {A B} (a : list A) : forall (b : list B) i x y,
  nth_error (combine a b) i = Some (x, y) <-> nth_error a i = Some x /\ nth_error b i = Some y.
Proof.
  induction a as [|x0 a IH]; intros b i x y.
  - cbn. destruct i; split; [discriminate|intros [H _]; discriminate|discriminate|intros [H _]; discriminate].
  - destruct b as [|y0 b]; cbn [combine].
    + destruct i; cbn; (split; [discriminate|intros [_ H]; discriminate]).
    + destruct i as [|i]; cbn [nth_error].
      * split; [intros H; injection H as -> ->; auto|intros [H1 H2]; congruence].
      * apply IH.
Qed.

Lemma sum_zero_pos_neg {A} (g : A -> Z) l : sumZ (map g l) = 0 -> sumZ (map (fun p => Z.abs (g p)) l) <> 0 ->
  exists i j p q, nth_error l i = Some p /\ nth_error l j = Some q /\ g p < 0 /\ 0 < g q.
Proof.
  intros H0 H1.
  assert (Hneg : exists i p, nth_error l i = Some p /\ g p < 0).
  { assert (G : forall l, (exists i p, nth_error l i = Some p /\ g p < 0) \/
      sumZ (map (fun p => Z.abs (g p)) l) = sumZ (map g l)).
    { clear. induction l as [|p l IH]; cbn; auto.
      destruct (Z.ltb_spec (g p) 0); [left; exists 0%nat, p; auto|].
      destruct IH as [(i & q & Hi & Hq)|IH]; [left; exists (S i), q; auto|right; lia]. }
    destruct (G l); auto. lia. }
  assert (Hpos : exists i p, nth_error l i = Some p /\ 0 < g p).
  { assert (G : forall l, (exists i p, nth_error l i = Some p /\ 0 < g p) \/
      sumZ (map (fun p => Z.abs (g p)) l) = - sumZ (map g l)).
    { clear. induction l as [|p l IH]; cbn; auto.
      destruct (Z.ltb_spec 0 (g p)); [left; exists 0%nat, p; auto|].
      destruct IH as [(i & q & Hi & Hq)|IH]; [left; exists (S i), q; auto|right; lia]. }
    destruct (G l); auto. lia. }
  destruct Hneg as (i & p & Hi & Hp), Hpos as (j & q & Hj & Hq). exists i, j, p, q. auto.
Qed.

Lemma electrons_bump_same al k x : electrons al (bump al k x) = electrons al x + k.
Proof. destruct al; reflexivity. Qed.
Lemma electrons_bump_other al k x : electrons (negb al) (bump al k x) = electrons (negb al) x.
Proof. destruct al; reflexivity. Qed.

(** one move towards bra *)
Lemma move_closer al bra ket : length bra = length ket -> occ_ok bra ->
  psum (gdiff al) bra ket = 0 -> psum (gabs al) bra ket <> 0 ->
  exists o, move ket o /\ length o = length ket /\
    psum (gdiff al) bra o = 0 /\ psum (gabs al) bra o = psum (gabs al) bra ket - 2 /\
    psum (gdiff (negb al)) bra o = psum (gdiff (negb al)) bra ket /\
    psum (gabs (negb al)) bra o = psum (gabs (negb al)) bra ket.
Proof.
  intros Hl Hok H0 H1.
  destruct (sum_zero_pos_neg (gdiff al) (combine bra ket) H0 H1) as (i & j & [bi ki] & [bj kj] & Hi & Hj & Hp & Hq).
  apply nth_error_combine in Hi as [Hbi Hki], Hj as [Hbj Hkj]. unfold gdiff in Hp, Hq. cbn [fst snd] in *.
  assert (Hij : i <> j) by (intros ->; rewrite Hki in Hkj; rewrite Hbi in Hbj; injection Hkj as ->; injection Hbj as ->; lia).
  assert (Hb0 : 0 <= electrons al bi).
  { unfold occ_ok in Hok. rewrite Forall_forall in Hok. apply nth_error_In in Hbi. specialize (Hok _ Hbi).
    destruct al; cbn; lia. }
  exists (upd j (bump al 1) (upd i (bump al (-1)) ket)).
  assert (Hkj' : nth_error (upd i (bump al (-1)) ket) j = Some kj) by (rewrite nth_error_upd_neq; auto).
  split.
  - exists al, i, j, ki. repeat split; auto; [|lia]. apply nth_error_Some_lt in Hkj. auto.
  - rewrite !upd_length.
    rewrite !(psum_upd _ (bump al 1) bra _ j kj bj Hbj Hkj').
    rewrite !(psum_upd _ (bump al (-1)) bra _ i ki bi Hbi Hki).
    repeat split; auto.
    all: cbn [fst snd]; unfold gabs, gdiff; cbn [fst snd]; rewrite ?electrons_bump_same, ?electrons_bump_other.
    + unfold gdiff in H0. cbn [fst snd] in H0. lia.
    + lia.
    + lia.
    + lia.
Qed.

Lemma reach_of_diff n : forall bra ket, length bra = length ket -> occ_ok bra ->
  psum (gdiff true) bra ket = 0 -> psum (gdiff false) bra ket = 0 ->
  psum (gabs true) bra ket + psum (gabs false) bra ket = 2 * Z.of_nat n -> reach n ket bra.
Proof.
  induction n as [|n IH]; intros bra ket Hl Hok Ht Hf Hs.
  - pose proof (psum_abs_nonneg true bra ket). pose proof (psum_abs_nonneg false bra ket).
    assert (Et : psum (gabs true) bra ket = 0) by lia. assert (Ef : psum (gabs false) bra ket = 0) by lia.
    replace bra with ket; [constructor|]. clear - Hl Et Ef. revert ket Hl Et Ef.
    induction bra as [|[a b] bra IH]; intros [|[c d] ket] Hl Et Ef; try discriminate; auto.
    unfold psum in *. cbn [combine map sumZ] in Et, Ef.
    pose proof (psum_abs_nonneg true bra ket). pose proof (psum_abs_nonneg false bra ket). unfold psum in *.
    unfold gabs at 1 in Et. unfold gabs at 1 in Ef. unfold gdiff in Et at 1. unfold gdiff in Ef at 1.
    cbn [electrons fst snd] in Et, Ef. f_equal; [f_equal; lia|]. apply IH; [cbn in Hl; lia|lia|lia].
  - destruct (Z.eq_dec (psum (gabs true) bra ket) 0) as [E|E].
    + destruct (move_closer false bra ket Hl Hok Hf) as (o & Hm & Hlo & K1 & K2 & K3 & K4); [lia|].
      apply ReachS with o; auto. apply IH; cbn [negb] in *; auto; lia.
    + destruct (move_closer true bra ket Hl Hok Ht E) as (o & Hm & Hlo & K1 & K2 & K3 & K4).
      apply ReachS with o; auto. apply IH; cbn [negb] in *; auto; lia.
Qed.

Lemma move_diff o o' bra : length bra = length o -> move o o' ->
  length o' = length o /\
  psum (gdiff true) bra o' = psum (gdiff true) bra o /\ psum (gdiff false) bra o' = psum (gdiff false) bra o /\
  psum (gabs true) bra o + psum (gabs false) bra o <= psum (gabs true) bra o' + psum (gabs false) bra o' + 2.
Proof.
  intros Hl (al & i & j & x & Hij & Hj & Hi & He & ->). rewrite !upd_length. split; auto.
  destruct (nth_error o j) as [kj|] eqn:Hkj; [|apply nth_error_None in Hkj; lia].
  destruct (nth_error bra j) as [bj|] eqn:Hbj; [|apply nth_error_None in Hbj; lia].
  destruct (nth_error bra i) as [bi|] eqn:Hbi.
  2:{ apply nth_error_None in Hbi. apply nth_error_Some_lt in Hi. lia. }
  assert (Hkj' : nth_error (upd i (bump al (-1)) o) j = Some kj) by (rewrite nth_error_upd_neq; auto).
  rewrite !(psum_upd _ (bump al 1) bra _ j kj bj Hbj Hkj').
  rewrite !(psum_upd _ (bump al (-1)) bra _ i x bi Hbi Hi).
  unfold gabs, gdiff; cbn [fst snd]. destruct al; cbn [bump electrons fst snd]; lia.
Qed.

Lemma diff_of_reach n ket bra : reach n ket bra -> length bra = length ket /\
  psum (gdiff true) bra ket = 0 /\ psum (gdiff false) bra ket = 0 /\
  psum (gabs true) bra ket + psum (gabs false) bra ket <= 2 * Z.of_nat n.
Proof.
  induction 1 as [o|k o1 o2 o3 Hm Hr (Hl & H1 & H2 & H3)].
  - assert (E : forall g, (forall x, g (x, x) = 0) -> psum g o o = 0).
    { intros g Hg. unfold psum. induction o; cbn; auto. rewrite Hg. lia. }
    rewrite !E by (intros x; unfold gabs, gdiff; cbn [fst snd]; lia). repeat split; lia.
  - assert (Hl1 : length o2 = length o1).
    { destruct Hm as (al & i & j & x & _ & _ & _ & _ & ->). rewrite !upd_length. auto. }
    destruct (move_diff o1 o2 o3 ltac:(lia) Hm) as (_ & K1 & K2 & K3).
    rewrite Nat2Z.inj_succ. repeat split; lia.
Qed.

Lemma coupled_reach bra ket : length bra = length ket -> occ_ok bra ->
  (is_interaction_coupled bra ket = true <-> exists k, (k <= 2)%nat /\ reach k ket bra).
Proof.
  intros Hl Hok. rewrite coupled_iff. split.
  - intros (Ht & Hf & Hd).
    pose proof (psum_abs_nonneg true bra ket). pose proof (psum_abs_nonneg false bra ket).
    pose proof (psum_parity true bra ket) as Pt. pose proof (psum_parity false bra ket) as Pf.
    rewrite Ht in Pt. rewrite Hf in Pf. change (Z.even 0) with true in *.
    apply Z.even_spec in Pt as [p Hp], Pf as [q Hq].
    exists (Z.to_nat (p + q)). split; [lia|]. apply reach_of_diff; auto. lia.
  - intros (k & Hk & Hr). apply diff_of_reach in Hr as (_ & H1 & H2 & H3). lia.
Qed.
