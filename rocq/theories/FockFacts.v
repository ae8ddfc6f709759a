(** Facts on the Fock space: bits, anticommutation, strings of operators, adjoints. *)
From Coq Require Import List NArith ZArith Arith Bool Lia Ring Sorting.Permutation.
From Verif Require Import Star FockSpec.
Import ListNotations.

(** ** bits *)
Lemma bt_sb d q r : bt (sb d q) r = (q =? r)%nat || bt d r.
Proof.
  unfold bt, sb. rewrite N.setbit_eqb. f_equal.
  destruct (Nat.eqb_spec q r) as [->|]; [apply N.eqb_refl|]. apply N.eqb_neq. lia.
Qed.
Lemma bt_cb d q r : bt (cb d q) r = negb (q =? r)%nat && bt d r.
Proof.
  unfold bt, cb. rewrite N.clearbit_eqb. rewrite andb_comm. f_equal. f_equal.
  destruct (Nat.eqb_spec q r) as [->|]; [apply N.eqb_refl|]. apply N.eqb_neq. lia.
Qed.
Lemma bt_ext d e : (forall q, bt d q = bt e q) -> d = e.
Proof. intros H. apply N.bits_inj. intros k. specialize (H (N.to_nat k)). unfold bt in H. now rewrite N2Nat.id in H. Qed.
Lemma bt_lor d e q : bt (N.lor d e) q = bt d q || bt e q.
Proof. apply N.lor_spec. Qed.
Lemma bt_land d e q : bt (N.land d e) q = bt d q && bt e q.
Proof. apply N.land_spec. Qed.
Lemma bt_0 q : bt 0 q = false.
Proof. apply N.bits_0. Qed.
Lemma bt_high d m q : (d < 2 ^ N.of_nat m)%N -> (m <= q)%nat -> bt d q = false.
Proof.
  intros H Hq. unfold bt. destruct (N.eq_dec d 0) as [->|Hd]; [apply N.bits_0|]. apply N.bits_above_log2.
  apply N.log2_lt_pow2; [lia|]. eapply N.lt_le_trans; [exact H|]. apply N.pow_le_mono_r; lia.
Qed.
Lemma lt_pow d m : (forall q, (m <= q)%nat -> bt d q = false) -> (d < 2 ^ N.of_nat m)%N.
Proof.
  intros H. destruct (N.eq_dec d 0) as [->|Hd]; [apply N.neq_0_lt_0, N.pow_nonzero; lia|].
  apply N.log2_lt_pow2; [lia|]. destruct (N.lt_ge_cases (N.log2 d) (N.of_nat m)) as [|C]; [assumption|exfalso].
  specialize (H (N.to_nat (N.log2 d)) ltac:(lia)). unfold bt in H. rewrite N2Nat.id, N.bit_log2 in H by assumption. discriminate.
Qed.
Lemma lt_pow_iff d m : (d < 2 ^ N.of_nat m)%N <-> forall q, (m <= q)%nat -> bt d q = false.
Proof. split; [intros H q; now apply bt_high|apply lt_pow]. Qed.
Lemma sb_lt d m q : (d < 2 ^ N.of_nat m)%N -> (q < m)%nat -> (sb d q < 2 ^ N.of_nat m)%N.
Proof. intros H Hq. apply lt_pow. intros r Hr. rewrite bt_sb, (bt_high d m r H Hr). destruct (Nat.eqb_spec q r); [lia|reflexivity]. Qed.
Lemma cb_lt d m q : (d < 2 ^ N.of_nat m)%N -> (cb d q < 2 ^ N.of_nat m)%N.
Proof. intros H. apply lt_pow. intros r Hr. rewrite bt_cb, (bt_high d m r H Hr). apply andb_false_r. Qed.
Lemma sb_cb d q : bt d q = true -> sb (cb d q) q = d.
Proof. intros H. apply bt_ext. intros r. rewrite bt_sb, bt_cb. destruct (Nat.eqb_spec q r) as [<-|]; cbn; auto. Qed.
Lemma cb_sb d q : bt d q = false -> cb (sb d q) q = d.
Proof. intros H. apply bt_ext. intros r. rewrite bt_cb, bt_sb. destruct (Nat.eqb_spec q r) as [<-|]; cbn; auto. Qed.
Lemma sb_comm d p q : sb (sb d p) q = sb (sb d q) p.
Proof. apply bt_ext. intros r. rewrite !bt_sb. destruct (q =? r)%nat, (p =? r)%nat; reflexivity. Qed.
Lemma cb_comm d p q : cb (cb d p) q = cb (cb d q) p.
Proof. apply bt_ext. intros r. rewrite !bt_cb. destruct (q =? r)%nat, (p =? r)%nat; reflexivity. Qed.
Lemma sb_cb_comm d p q : p <> q -> sb (cb d p) q = cb (sb d q) p.
Proof.
  intros H. apply bt_ext. intros r. rewrite bt_sb, !bt_cb, bt_sb.
  destruct (Nat.eqb_spec q r), (Nat.eqb_spec p r); cbn; auto; lia.
Qed.

(** ** parities *)
Lemma parity_cons {A} (f : A -> bool) x l : parity f (x :: l) = xorb (f x) (parity f l).
Proof. reflexivity. Qed.
Lemma parity_ext {A} (f g : A -> bool) l : (forall x, In x l -> f x = g x) -> parity f l = parity g l.
Proof. induction l as [|x l IH]; intros H; [reflexivity|]. rewrite !parity_cons, (H x (or_introl eq_refl)), IH; [reflexivity|intros; apply H; now right]. Qed.
Lemma parity_xor {A} (f g : A -> bool) l : parity (fun x => xorb (f x) (g x)) l = xorb (parity f l) (parity g l).
Proof. induction l as [|x l IH]; [reflexivity|]. rewrite !parity_cons, IH. destruct (f x), (g x), (parity f l), (parity g l); reflexivity. Qed.
Lemma parity_eqb l q : NoDup l -> parity (Nat.eqb q) l = if in_dec Nat.eq_dec q l then true else false.
Proof.
  induction 1 as [|x l Hx Hn IH]; [reflexivity|]. rewrite parity_cons, IH.
  destruct (in_dec Nat.eq_dec q (x :: l)) as [[<-|H1]|H1]; destruct (in_dec Nat.eq_dec q l) as [H2|H2] || destruct (in_dec Nat.eq_dec x l) as [H2|H2];
    try contradiction; rewrite ?Nat.eqb_refl; try reflexivity.
  - destruct (Nat.eqb_spec q x) as [->|]; [contradiction|reflexivity].
  - elim H1. now right.
  - destruct (Nat.eqb_spec q x) as [->|]; [elim H1; now left|reflexivity].
Qed.

Lemma above_toggle m d e p q : (q < m)%nat -> (forall r, bt e r = xorb (q =? r)%nat (bt d r)) ->
  above m e p = xorb (p <? q)%nat (above m d p).
Proof.
  intros Hq H. unfold above. rewrite (parity_ext _ (fun r => xorb (q =? r)%nat (bt d r))) by (intros; apply H).
  rewrite parity_xor. f_equal. rewrite parity_eqb by apply seq_NoDup.
  destruct (in_dec Nat.eq_dec q (seq (S p) (m - S p))) as [Hi|Hi]; rewrite in_seq in Hi;
    destruct (Nat.ltb_spec p q); try reflexivity; lia.
Qed.
Lemma above_sb m d p q : (q < m)%nat -> bt d q = false -> above m (sb d q) p = xorb (p <? q)%nat (above m d p).
Proof. intros Hq H. apply above_toggle; [assumption|]. intros r. rewrite bt_sb. destruct (Nat.eqb_spec q r) as [<-|]; [now rewrite H|cbn; now destruct (bt d r)]. Qed.
Lemma above_cb m d p q : (q < m)%nat -> bt d q = true -> above m (cb d q) p = xorb (p <? q)%nat (above m d p).
Proof. intros Hq H. apply above_toggle; [assumption|]. intros r. rewrite bt_cb. destruct (Nat.eqb_spec q r) as [<-|]; [now rewrite H|cbn; now destruct (bt d r)]. Qed.
Lemma above_sb_same m d p : above m (sb d p) p = above m d p.
Proof.
  apply parity_ext. intros r Hr. apply in_seq in Hr. rewrite bt_sb. destruct (Nat.eqb_spec p r); [lia|reflexivity].
Qed.
Lemma above_cb_same m d p : above m (cb d p) p = above m d p.
Proof.
  apply parity_ext. intros r Hr. apply in_seq in Hr. rewrite bt_cb. destruct (Nat.eqb_spec p r); [lia|reflexivity].
Qed.

(** ** determinants *)
Lemma in_dets m d : In d (dets m) <-> (d < 2 ^ N.of_nat m)%N.
Proof.
  unfold dets. rewrite in_map_iff. 
  assert (E : N.of_nat (2 ^ m) = (2 ^ N.of_nat m)%N) by (rewrite Nat2N.inj_pow; reflexivity).
  split.
  - intros [k [<- Hk]]. apply in_seq in Hk. lia.
  - intros H. exists (N.to_nat d). rewrite N2Nat.id. split; [reflexivity|]. apply in_seq. lia.
Qed.
Lemma NoDup_dets m : NoDup (dets m).
Proof. apply FinFun.Injective_map_NoDup; [intros x y; apply Nat2N.inj|apply seq_NoDup]. Qed.

Section Facts.
Variable K : star_ring.
Add Ring Kring : (sring K).
Local Open Scope star_scope.
Notation sg := (sg K). Notation cre := (cre K). Notation ann := (ann K).
Notation creL := (creL K). Notation annL := (annL K). Notation exop := (exop K).
Notation vec := (vec K).

Lemma sg_sg a b (x : K) : sg a (sg b x) = sg (xorb a b) x.
Proof. destruct a, b; cbn; ring. Qed.
Lemma sg_0 b : sg b s0 = @s0 K.
Proof. destruct b; cbn; ring. Qed.
Lemma sg_mul b (x y : K) : sg b x * y = sg b (x * y).
Proof. destruct b; cbn; ring. Qed.
Lemma mul_sg b (x y : K) : x * sg b y = sg b (x * y).
Proof. destruct b; cbn; ring. Qed.
Lemma sg_add b (x y : K) : sg b (x + y) = sg b x + sg b y.
Proof. destruct b; cbn; ring. Qed.
Lemma sg_opp b (x : K) : sg b (- x) = - sg b x.
Proof. destruct b; cbn; ring. Qed.
Lemma sg_negb b (x : K) : sg (negb b) x = - sg b x.
Proof. destruct b; cbn; ring. Qed.
Lemma sg_inv b (x : K) : sg b (sg b x) = x.
Proof. destruct b; cbn; ring. Qed.
Lemma sg_conj b (x : K) : sconj (sg b x) = sg b (sconj x).
Proof.
  destruct b; cbn; [|reflexivity]. assert (E : sconj (- x) + sconj x = @s0 K) by (rewrite <- sconj_add; replace (- x + x) with (@s0 K) by ring; apply sconj_0).
  transitivity (sconj (- x) + sconj x - sconj x); [ring|]. rewrite E. ring.
Qed.

(** ** anticommutation *)
Lemma cre_cre m p q (v : vec) d : (p < m)%nat -> (q < m)%nat ->
  cre m p (cre m q v) d = - cre m q (cre m p v) d.
Proof.
  intros Hp Hq. unfold FockSpec.cre. rewrite !bt_cb.
  destruct (Nat.eqb_spec p q) as [->|Hne].
  - rewrite Nat.eqb_refl. cbn. destruct (bt d q); rewrite ?sg_0; ring.
  - assert (E : (q =? p)%nat = false) by (apply Nat.eqb_neq; lia). rewrite E. cbn.
    destruct (bt d p) eqn:Bp, (bt d q) eqn:Bq; rewrite ?sg_0; try ring.
    rewrite above_cb, (above_cb m d p q) by assumption. rewrite !sg_sg, cb_comm, <- sg_negb. f_equal.
    destruct (Nat.ltb_spec p q), (Nat.ltb_spec q p); try lia; destruct (above m d p), (above m d q); reflexivity.
Qed.
Lemma ann_ann m p q (v : vec) d : (p < m)%nat -> (q < m)%nat ->
  ann m p (ann m q v) d = - ann m q (ann m p v) d.
Proof.
  intros Hp Hq. unfold FockSpec.ann. rewrite !bt_sb.
  destruct (Nat.eqb_spec p q) as [->|Hne].
  - rewrite Nat.eqb_refl. cbn. destruct (bt d q); rewrite ?sg_0; ring.
  - assert (E : (q =? p)%nat = false) by (apply Nat.eqb_neq; lia). rewrite E. cbn.
    destruct (bt d p) eqn:Bp, (bt d q) eqn:Bq; rewrite ?sg_0; try ring.
    rewrite above_sb, (above_sb m d p q) by assumption. rewrite !sg_sg, sb_comm, <- sg_negb. f_equal.
    destruct (Nat.ltb_spec p q), (Nat.ltb_spec q p); try lia; destruct (above m d p), (above m d q); reflexivity.
Qed.
Lemma ann_cre m p q (v : vec) d : (p < m)%nat -> (q < m)%nat ->
  ann m p (cre m q v) d + cre m q (ann m p v) d = if (p =? q)%nat then v d else s0.
Proof.
  intros Hp Hq. unfold FockSpec.ann, FockSpec.cre. rewrite bt_sb, bt_cb.
  destruct (Nat.eqb_spec p q) as [->|Hne].
  - rewrite Nat.eqb_refl. cbn. destruct (bt d q) eqn:Bq.
    + rewrite above_cb_same, sg_inv, sb_cb by assumption. ring.
    + rewrite above_sb_same, sg_inv, cb_sb by assumption. ring.
  - assert (E : (q =? p)%nat = false) by (apply Nat.eqb_neq; lia). rewrite E. cbn.
    destruct (bt d p) eqn:Bp, (bt d q) eqn:Bq; rewrite ?sg_0; try ring.
    rewrite above_cb, (above_sb m d q p) by assumption. rewrite !sg_sg, sb_cb_comm by lia.
    assert (X : forall b c (x y : K), c = negb b -> x = y -> sg b x + sg c y = s0) by (intros b c x y -> ->; rewrite sg_negb; ring).
    apply X; [|reflexivity].
    destruct (Nat.ltb_spec p q), (Nat.ltb_spec q p); try lia; destruct (above m d p), (above m d q); reflexivity.
Qed.

(** ** strings of operators *)
Fixpoint allset (d : N) (l : list nat) : bool :=
  match l with [] => true | a :: r => bt d a && allset (cb d a) r end.
Fixpoint allclr (d : N) (l : list nat) : bool :=
  match l with [] => true | a :: r => negb (bt d a) && allclr (sb d a) r end.
Fixpoint clrs (d : N) (l : list nat) : N := match l with [] => d | a :: r => clrs (cb d a) r end.
Fixpoint sets (d : N) (l : list nat) : N := match l with [] => d | a :: r => sets (sb d a) r end.
(** sign picked up when the orbitals of [l] are taken out of [d] one after the other *)
Fixpoint pop (m : nat) (l : list nat) (d : N) : bool :=
  match l with [] => false | a :: r => xorb (above m d a) (pop m r (cb d a)) end.

Lemma creL_at m l (v : vec) : forall d,
  creL m l v d = if allset d l then sg (pop m l d) (v (clrs d l)) else s0.
Proof.
  induction l as [|a l IH]; intros d; [reflexivity|]. cbn [FockSpec.creL allset pop clrs]. unfold FockSpec.cre at 1.
  destruct (bt d a); [|reflexivity]. cbn [andb]. rewrite IH. destruct (allset (cb d a) l); [apply sg_sg|apply sg_0].
Qed.

Lemma bt_sets l : forall d q, bt (sets d l) q = existsb (fun a => (a =? q)%nat) l || bt d q.
Proof. induction l as [|a l IH]; intros d q; [reflexivity|]. cbn [sets existsb]. rewrite IH, bt_sb. now destruct (a =? q)%nat, (existsb _ l). Qed.
Lemma bt_clrs l : forall d q, bt (clrs d l) q = negb (existsb (fun a => (a =? q)%nat) l) && bt d q.
Proof. induction l as [|a l IH]; intros d q; [reflexivity|]. cbn [clrs existsb]. rewrite IH, bt_cb. now destruct (a =? q)%nat, (existsb _ l). Qed.
Lemma existsb_eq l q : existsb (fun a => (a =? q)%nat) l = true <-> In q l.
Proof. rewrite existsb_exists. split; [intros [a [H E]]; apply Nat.eqb_eq in E; now subst|intros H; exists q; split; [assumption|apply Nat.eqb_refl]]. Qed.
Lemma existsb_neq l q : existsb (fun a => (a =? q)%nat) l = false <-> ~ In q l.
Proof. rewrite <- existsb_eq. destruct (existsb _ l); split; congruence. Qed.

Lemma allset_iff l : forall d, allset d l = true <-> NoDup l /\ forall q, In q l -> bt d q = true.
Proof.
  induction l as [|a l IH]; intros d; cbn [allset].
  - split; [intros _; split; [constructor|now intros]|reflexivity].
  - rewrite andb_true_iff, IH. split.
    + intros [Ha [Hn H]]. split.
      * constructor; [|assumption]. intros C. specialize (H a C). rewrite bt_cb, Nat.eqb_refl in H. discriminate.
      * intros q [<-|Hq]; [assumption|]. specialize (H q Hq). rewrite bt_cb in H. now apply andb_true_iff in H.
    + intros [Hn H]. inversion Hn as [|? ? Hx Hl]; subst. split; [apply H; now left|]. split; [assumption|].
      intros q Hq. rewrite bt_cb, (H q (or_intror Hq)), andb_true_r, negb_true_iff. apply Nat.eqb_neq. intros ->. contradiction.
Qed.
Lemma allclr_iff l : forall d, allclr d l = true <-> NoDup l /\ forall q, In q l -> bt d q = false.
Proof.
  induction l as [|a l IH]; intros d; cbn [allclr].
  - split; [intros _; split; [constructor|now intros]|reflexivity].
  - rewrite andb_true_iff, negb_true_iff, IH. split.
    + intros [Ha [Hn H]]. split.
      * constructor; [|assumption]. intros C. specialize (H a C). rewrite bt_sb, Nat.eqb_refl in H. discriminate.
      * intros q [<-|Hq]; [assumption|]. specialize (H q Hq). rewrite bt_sb in H. now apply orb_false_iff in H.
    + intros [Hn H]. inversion Hn as [|? ? Hx Hl]; subst. split; [apply H; now left|]. split; [assumption|].
      intros q Hq. rewrite bt_sb, (H q (or_intror Hq)), orb_false_r. apply Nat.eqb_neq. intros ->. contradiction.
Qed.

Lemma annL_at m l (v : vec) : forall d,
  annL m l v d = if allclr d l then sg (pop m l (sets d l)) (v (sets d l)) else s0.
Proof.
  revert v. induction l as [|i l IH]; intros v d; [reflexivity|].
  cbn [FockSpec.annL]. rewrite IH. destruct (allclr d (i :: l)) eqn:A.
  - apply allclr_iff in A. destruct A as [Hn H]. inversion Hn as [|? ? Hi Hl]; subst.
    assert (A : allclr d l = true) by (apply allclr_iff; split; [assumption|intros; apply H; now right]). rewrite A.
    assert (B : bt (sets d l) i = false) by (rewrite bt_sets, (H i (or_introl eq_refl)), orb_false_r; now apply existsb_neq).
    assert (E : sets (sb d i) l = sb (sets d l) i).
    { apply bt_ext. intros q. rewrite bt_sb, !bt_sets, bt_sb. now destruct (i =? q)%nat, (existsb _ l). }
    unfold FockSpec.ann. rewrite B. cbn [sets pop]. rewrite E, cb_sb, above_sb_same by assumption. rewrite sg_sg. f_equal. apply xorb_comm.
  - destruct (allclr d l) eqn:A'; [|reflexivity].
    assert (B : bt (sets d l) i = true).
    { rewrite bt_sets. destruct (existsb (fun a => (a =? i)%nat) l) eqn:Ei; [reflexivity|]. cbn.
      destruct (bt d i) eqn:Bi; [reflexivity|exfalso]. apply existsb_neq in Ei.
      assert (T : allclr d (i :: l) = true); [|congruence].
      apply allclr_iff in A'. destruct A' as [Hn H]. apply allclr_iff. split; [now constructor|]. intros q [<-|Hq]; auto. }
    unfold FockSpec.ann. rewrite B. apply sg_0.
Qed.

(** a0' a1' ... i1 i0 at one determinant *)
Lemma exop_at m a i (v : vec) d :
  exop m a i v d =
    if allset d a && allclr (clrs d a) i
    then sg (xorb (pop m a d) (pop m i (sets (clrs d a) i))) (v (sets (clrs d a) i)) else s0.
Proof.
  unfold FockSpec.exop. rewrite creL_at, annL_at. destruct (allset d a); [|reflexivity]. cbn.
  destruct (allclr (clrs d a) i); [apply sg_sg|apply sg_0].
Qed.

End Facts.
