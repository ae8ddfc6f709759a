(** Bit manipulation of lib/fsucc.c against the Fock space of FockSpec. *)
From Coq Require Import List NArith ZArith Arith Bool Lia Ring Sorting.Permutation.
From Verif Require Import Star FockSpec FockFacts FsuccModel.
Import ListNotations.

Lemma bt_bit q r : bt (bit q) r = (q =? r)%nat.
Proof.
  unfold bt, bit. rewrite N.shiftl_1_l, N.pow2_bits_eqb. destruct (Nat.eqb_spec q r) as [->|]; [apply N.eqb_refl|]. apply N.eqb_neq. lia.
Qed.
Lemma bit_pow q : bit q = (2 ^ N.of_nat q)%N.
Proof. unfold bit. now rewrite N.shiftl_1_l. Qed.
Lemma land_bit d q : N.land d (bit q) = if bt d q then bit q else 0%N.
Proof.
  apply bt_ext. intros r. rewrite bt_land, bt_bit. destruct (Nat.eqb_spec q r) as [<-|H].
  - destruct (bt d q); [now rewrite bt_bit, Nat.eqb_refl|now rewrite bt_0].
  - rewrite andb_false_r. destruct (bt d q); [|now rewrite bt_0]. rewrite bt_bit. symmetry. now apply Nat.eqb_neq.
Qed.
Lemma isbit_bt d q : isbit d q = bt d q.
Proof.
  unfold isbit. rewrite land_bit. destruct (bt d q); [|reflexivity]. rewrite bit_pow.
  destruct (N.eqb_spec (2 ^ N.of_nat q) 0) as [E|]; [|reflexivity]. elim (N.pow_nonzero 2 (N.of_nat q)); [lia|exact E].
Qed.
Lemma lor_bit d q : N.lor d (bit q) = sb d q.
Proof. reflexivity. Qed.
Lemma lxor_bit d q : bt d q = true -> N.lxor d (bit q) = cb d q.
Proof.
  intros H. apply bt_ext. intros r. rewrite bt_cb. unfold bt at 1. rewrite N.lxor_spec. fold (bt d r). fold (bt (bit q) r).
  rewrite bt_bit. destruct (Nat.eqb_spec q r) as [<-|]; [now rewrite H|]. cbn. now destruct (bt d r).
Qed.
Lemma shift_land d q : N.shiftr (N.land d (bit q)) (N.of_nat q) = N.b2n (bt d q).
Proof.
  rewrite land_bit. destruct (bt d q); cbn [N.b2n]; [|apply N.shiftr_0_l].
  unfold bit. rewrite N.shiftr_shiftl_l by lia. rewrite N.sub_diag. apply N.shiftl_0_r.
Qed.

Lemma setbits_spec l : setbits l = if allclr 0 l then Some (sets 0 l) else None.
Proof.
  unfold setbits. generalize 0%N as d. induction l as [|i l IH]; intros d; [reflexivity|].
  cbn [fold_left allclr sets]. rewrite isbit_bt. destruct (bt d i); cbn [negb andb].
  - clear IH. induction l as [|j l IHl]; [reflexivity|exact IHl].
  - rewrite lor_bit. apply IH.
Qed.
Lemma setbits_ok l : NoDup l -> setbits l = Some (sets 0 l).
Proof. intros H. rewrite setbits_spec. replace (allclr 0 l) with true; [reflexivity|]. symmetry. apply allclr_iff. split; [assumption|]. intros; apply bt_0. Qed.
Lemma setbits_dup l : ~ NoDup l -> setbits l = None.
Proof. intros H. rewrite setbits_spec. destruct (allclr 0 l) eqn:A; [|reflexivity]. apply allclr_iff in A. now elim H. Qed.
Lemma lor_sets d l : N.lor d (sets 0 l) = sets d l.
Proof. apply bt_ext. intros q. rewrite bt_lor, !bt_sets, bt_0, orb_false_r. apply orb_comm. Qed.
Lemma lor_sets_sets l1 l2 : N.lor (sets 0 l1) (sets 0 l2) = sets 0 (l1 ++ l2).
Proof. apply bt_ext. intros q. rewrite bt_lor, !bt_sets, bt_0, !orb_false_r, existsb_app. reflexivity. Qed.

(** ** inserting zeros *)
Lemma bt_insert0 p d q : bt (insert0 p d) q = if (q <? p)%nat then bt d q else if (q =? p)%nat then false else bt d (q - 1).
Proof.
  unfold insert0. rewrite bt_lor, bt_land. replace (bit p - 1)%N with (N.ones (N.of_nat p)) by (rewrite bit_pow, N.ones_equiv; lia).
  unfold bt. destruct (Nat.ltb_spec q p) as [H|H].
  - rewrite N.ones_spec_low by lia. rewrite N.shiftl_spec_low by lia. now rewrite andb_true_r.
  - rewrite N.ones_spec_high by lia. rewrite andb_false_r, orb_false_r. destruct (Nat.eqb_spec q p) as [->|Hn].
    + rewrite N.shiftl_spec_low by lia. reflexivity.
    + rewrite N.shiftl_spec_high' by lia. rewrite N.shiftr_spec'. f_equal. lia.
Qed.
Lemma insert0_inj p d e : insert0 p d = insert0 p e -> d = e.
Proof.
  intros H. apply bt_ext. intros q. destruct (Nat.ltb_spec q p) as [Hq|Hq].
  - pose proof (f_equal (fun x => bt x q) H) as E. cbv beta in E. rewrite !bt_insert0 in E. destruct (Nat.ltb_spec q p); [assumption|lia].
  - pose proof (f_equal (fun x => bt x (S q)) H) as E. cbv beta in E. rewrite !bt_insert0 in E.
    destruct (Nat.ltb_spec (S q) p); [lia|]. destruct (Nat.eqb_spec (S q) p); [lia|]. now rewrite Nat.sub_1_r in E.
Qed.
(** take the bit at [p] out *)
Definition remove (p : nat) (d : N) : N :=
  N.lor (N.shiftl (N.shiftr d (N.of_nat (p + 1))) (N.of_nat p)) (N.land d (N.ones (N.of_nat p))).
Lemma bt_remove p d q : bt (remove p d) q = if (q <? p)%nat then bt d q else bt d (S q).
Proof.
  unfold remove. rewrite bt_lor, bt_land. unfold bt. destruct (Nat.ltb_spec q p) as [H|H].
  - rewrite N.ones_spec_low by lia. rewrite N.shiftl_spec_low by lia. now rewrite andb_true_r.
  - rewrite N.ones_spec_high by lia. rewrite andb_false_r, orb_false_r. 
    rewrite N.shiftl_spec_high' by lia. rewrite N.shiftr_spec'. f_equal. lia.
Qed.
Lemma insert0_remove p d : bt d p = false -> insert0 p (remove p d) = d.
Proof.
  intros H. apply bt_ext. intros q. rewrite bt_insert0, !bt_remove.
  destruct (Nat.ltb_spec q p); [reflexivity|]. destruct (Nat.eqb_spec q p) as [->|]; [now symmetry|].
  destruct (Nat.ltb_spec (q - 1) p); [lia|]. f_equal. lia.
Qed.
Lemma insert0_lt p d m : (p <= m)%nat -> ((insert0 p d < 2 ^ N.of_nat (S m))%N <-> (d < 2 ^ N.of_nat m)%N).
Proof.
  intros Hp. rewrite !lt_pow_iff. split; intros H q Hq.
  - specialize (H (S q) ltac:(lia)). rewrite bt_insert0 in H. destruct (Nat.ltb_spec (S q) p); [lia|]. destruct (Nat.eqb_spec (S q) p); [lia|].
    now rewrite Nat.sub_1_r in H.
  - rewrite bt_insert0. destruct (Nat.ltb_spec q p); [lia|]. destruct (Nat.eqb_spec q p); [reflexivity|]. apply H. lia.
Qed.

Lemma spread_S n mask d : spread (S n) mask d = if bt mask n then insert0 n (spread n mask d) else spread n mask d.
Proof. unfold spread. rewrite seq_S, fold_left_app. cbn [fold_left]. rewrite isbit_bt. reflexivity. Qed.
Lemma spread_clear n mask d : forall q, (q < n)%nat -> bt mask q = true -> bt (spread n mask d) q = false.
Proof.
  induction n as [|n IH]; intros q Hq Hm; [lia|]. rewrite spread_S. destruct (bt mask n) eqn:E.
  - rewrite bt_insert0. destruct (Nat.ltb_spec q n); [now apply IH|]. destruct (Nat.eqb_spec q n); [reflexivity|lia].
  - destruct (Nat.eq_dec q n) as [->|]; [congruence|]. apply IH; [lia|assumption].
Qed.
Lemma spread_inj n mask : forall d e, spread n mask d = spread n mask e -> d = e.
Proof.
  induction n as [|n IH]; intros d e H; [exact H|]. rewrite !spread_S in H. destruct (bt mask n); [apply insert0_inj in H|]; now apply IH.
Qed.
Lemma spread_onto n mask : forall e, (forall q, (q < n)%nat -> bt mask q = true -> bt e q = false) -> exists d, spread n mask d = e.
Proof.
  induction n as [|n IH]; intros e H; [now exists e|]. destruct (bt mask n) eqn:E.
  - destruct (IH (remove n e)) as [d Hd].
    + intros q Hq Hm. rewrite bt_remove. destruct (Nat.ltb_spec q n); [|lia]. apply H; [lia|assumption].
    + exists d. rewrite spread_S, E, Hd. apply insert0_remove. apply H; [lia|assumption].
  - destruct (IH e) as [d Hd]; [intros; apply H; [lia|assumption]|]. exists d. now rewrite spread_S, E.
Qed.
Fixpoint nmask (n : nat) (mask : N) : nat :=
  match n with 0 => 0 | S k => (if bt mask k then 1 else 0) + nmask k mask end.
Lemma nmask_le n mask : (nmask n mask <= n)%nat.
Proof. induction n as [|n IH]; cbn [nmask]; [lia|]. destruct (bt mask n); lia. Qed.
Lemma spread_lt n mask d : forall m, (n <= m)%nat ->
  ((spread n mask d < 2 ^ N.of_nat m)%N <-> (d < 2 ^ N.of_nat (m - nmask n mask))%N).
Proof.
  induction n as [|n IH]; intros m Hm.
  - cbn [nmask]. rewrite Nat.sub_0_r. reflexivity.
  - rewrite spread_S. cbn [nmask]. destruct (bt mask n).
    + destruct m as [|m]; [lia|]. rewrite insert0_lt by lia. rewrite IH by lia. reflexivity.
    + apply IH. lia.
Qed.
Lemma count_dets_spec norb mask : count_dets norb mask = (2 ^ N.of_nat (norb - nmask norb mask))%N.
Proof.
  unfold count_dets. rewrite bit_pow.
  enough (G : forall n, (n <= norb)%nat ->
    fold_left (fun n r => if isbit mask r then N.shiftr n 1 else n) (seq 0 n) (2 ^ N.of_nat norb)%N = (2 ^ N.of_nat (norb - nmask n mask))%N)
    by (now apply G).
  induction n as [|n IH]; intros Hn; [cbn [seq fold_left nmask]; now rewrite Nat.sub_0_r|].
  rewrite seq_S, fold_left_app. cbn [fold_left]. rewrite IH by lia. rewrite isbit_bt. cbn [nmask Nat.add].
  destruct (bt mask n); [|reflexivity]. pose proof (nmask_le n mask). rewrite N.shiftr_div_pow2, N.pow_1_r.
  replace (norb - nmask n mask)%nat with (S (norb - S (nmask n mask))) by lia.
  rewrite Nat2N.inj_succ, N.pow_succ_r'. rewrite N.mul_comm. apply N.div_mul. lia.
Qed.
Lemma in_nrange n d : In d (nrange n) <-> (d < n)%N.
Proof.
  unfold nrange. rewrite in_map_iff. split.
  - intros [k [<- Hk]]. apply in_seq in Hk. lia.
  - intros H. exists (N.to_nat d). rewrite N2Nat.id. split; [reflexivity|]. apply in_seq. lia.
Qed.
Lemma NoDup_nrange n : NoDup (nrange n).
Proof. apply FinFun.Injective_map_NoDup; [intros x y; apply Nat2N.inj|apply seq_NoDup]. Qed.

(** ** signs *)
Lemma lxor_b2n s a b : N.lxor (N.lxor s (N.b2n a)) (N.b2n b) = N.lxor s (N.b2n (xorb a b)).
Proof. rewrite N.lxor_assoc. f_equal. destruct a, b; reflexivity. Qed.
Lemma inner_sign d l : forall s,
  fold_left (fun s q => N.lxor s (N.shiftr (N.land d (bit q)) (N.of_nat q))) l s = N.lxor s (N.b2n (parity (bt d) l)).
Proof.
  induction l as [|q l IH]; intros s; [cbn; now rewrite N.lxor_0_r|]. cbn [fold_left]. rewrite IH, shift_land, lxor_b2n. reflexivity.
Qed.
Lemma pop_sign_spec norb l : forall s d, allset d l = true -> pop_sign norb l s d = N.lxor s (N.b2n (pop norb l d)).
Proof.
  unfold pop_sign. induction l as [|a l IH]; intros s d H; [cbn; now rewrite N.lxor_0_r|].
  cbn [allset] in H. apply andb_true_iff in H. destruct H as [Ha H]. cbn [fold_left pop].
  rewrite inner_sign, lxor_bit by assumption. rewrite IH by assumption. rewrite lxor_b2n. f_equal. unfold above. now rewrite Nat.add_1_r.
Qed.
Lemma sign_of_spec norb a i ia ai : allset ia i = true -> allset ai a = true ->
  sign_of norb a i ia ai = (if xorb (pop norb a ai) (pop norb i ia) then -1 else 1)%Z.
Proof.
  intros Hi Ha. unfold sign_of. rewrite !pop_sign_spec by assumption. rewrite lxor_b2n, N.lxor_0_l.
  destruct (pop norb a ai), (pop norb i ia); reflexivity.
Qed.

(** ** loops whose iterations touch disjoint cells *)
Lemma fold_foot {V X : Type} (step : (N -> V) -> X -> (N -> V)) (cells : X -> list N) (l : list X) : forall s,
  NoDup l ->
  (forall x, In x l -> forall s e, ~ In e (cells x) -> step s x e = s e) ->
  (forall x, In x l -> forall s s', (forall e, In e (cells x) -> s e = s' e) ->
      forall e, In e (cells x) -> step s x e = step s' x e) ->
  (forall x y, In x l -> In y l -> x <> y -> forall e, In e (cells x) -> ~ In e (cells y)) ->
  (forall x, In x l -> forall e, In e (cells x) -> fold_left step l s e = step s x e) /\
  (forall e, (forall x, In x l -> ~ In e (cells x)) -> fold_left step l s e = s e).
Proof.
  induction l as [|x l IH]; intros s Hn Hout Hin Hd; [split; [now intros|reflexivity]|].
  inversion Hn as [|? ? Hx Hl]; subst. cbn [fold_left].
  destruct (IH (step s x) Hl) as [I1 I2].
  { intros y Hy. apply Hout. now right. } { intros y Hy. apply Hin. now right. } { intros y z Hy Hz. apply Hd; now right. }
  split.
  - intros y [<-|Hy] e He.
    + apply I2. intros z Hz. apply (Hd x z); [now left|now right| |assumption]. intros ->. contradiction.
    + rewrite (I1 y Hy e He). apply (Hin y (or_intror Hy)); [|assumption]. intros e' He'. apply Hout; [now left|].
      apply (Hd y x); [now right|now left| |assumption]. intros ->. contradiction.
  - intros e He. rewrite I2 by (intros z Hz; apply He; now right). apply Hout; [now left|apply He; now left].
Qed.
