(** Spinless representation (op_o0.py). *)
From Coq Require Import List Arith Bool Lia Ring.
From Verif Require Import Base BaseFacts Star Anti SignsModel DetModel DetFacts DetDummy.
Import ListNotations.
Local Open Scope nat_scope.

Definition pairs (l1 l2 : list det) : list det := flat_map (fun sa => map (fun sb => sa ++ sb) l2) l1.

Lemma nth_pairs l1 : forall l2 i j s t, nth_error l1 i = Some s -> nth_error l2 j = Some t ->
  nth_error (pairs l1 l2) (i * length l2 + j) = Some (s ++ t).
Proof.
  induction l1 as [|u l1 IH]; intros l2 i j s t Hi Hj; [destruct i; discriminate|].
  unfold pairs; cbn [flat_map]. fold (pairs l1 l2).
  assert (j < length l2) by (apply nth_error_Some; congruence).
  destruct i as [|i]; cbn in Hi.
  - injection Hi as ->. rewrite nth_error_app1 by (rewrite map_length; lia).
    apply (map_nth_error (fun sb => s ++ sb)); auto.
  - rewrite nth_error_app2 by (rewrite map_length; lia). rewrite map_length.
    replace (S i * length l2 + j - length l2) with (i * length l2 + j) by lia. auto.
Qed.

Lemma in_pairs l1 l2 x : In x (pairs l1 l2) <-> exists s t, In s l1 /\ In t l2 /\ x = s ++ t.
Proof.
  unfold pairs. rewrite in_flat_map. split.
  - intros (s & Hs & H). apply in_map_iff in H as (t & <- & Ht). eauto.
  - intros (s & t & Hs & Ht & ->). exists s; split; auto. apply in_map_iff; eauto.
Qed.

Lemma NoDup_pairs n l1 l2 : NoDup l1 -> NoDup l2 -> (forall s, In s l1 -> length s = n) -> NoDup (pairs l1 l2).
Proof.
  induction 1 as [|u l1 Hu H1 IH]; intros H2 Hl; cbn; [constructor|]. apply NoDup_app_intro.
  - apply FinFun.Injective_map_NoDup; auto. intros a b. apply app_inv_head.
  - apply IH; auto. intros; apply Hl; right; auto.
  - intros x Hx Hc. apply in_map_iff in Hx as (t & <- & Ht). fold (pairs l1 l2) in Hc.
    apply in_pairs in Hc as (s & t' & Hs & _ & E).
    apply Hu. assert (u = s); [|congruence].
    apply (f_equal (firstn n)) in E. rewrite !firstn_app in E.
    rewrite (Hl u (or_introl eq_refl)), (Hl s (or_intror Hs)), Nat.sub_diag in E. cbn [firstn] in E. rewrite !app_nil_r in E.
    rewrite !firstn_all2 in E; auto.
    + rewrite (Hl s (or_intror Hs)); auto.
    + rewrite (Hl u (or_introl eq_refl)); auto.
Qed.

Lemma NoDup_map_on {A B} (f : A -> B) l : NoDup l -> (forall x y, In x l -> In y l -> f x = f y -> x = y) -> NoDup (map f l).
Proof.
  induction 1 as [|a l Ha Hl IH]; intros H; cbn; constructor.
  - intros Hx. apply in_map_iff in Hx as (y & E & Hy). apply Ha. rewrite <- (H y a); auto; [right|left]; auto.
  - apply IH. intros; apply H; auto; right; auto.
Qed.

Section S.
Variables norb : nat.

Lemma spinless_ok na nb s : In s (pairs (strs norb na) (strs norb nb)) ->
  length s = 2 * norb /\ count s = na + nb.
Proof.
  intros H. apply in_pairs in H as (u & v & Hu & Hv & ->). apply in_strs in Hu, Hv.
  rewrite app_length, count_app. lia.
Qed.

Lemma spinless_NoDup na nb : NoDup (spinless_addrs norb (na + nb) (na, nb)).
Proof.
  unfold spinless_addrs. cbn [fst snd]. fold (pairs (strs norb na) (strs norb nb)). apply NoDup_map_on.
  - apply (NoDup_pairs norb); try apply strs_NoDup. intros s Hs. apply in_strs in Hs; tauto.
  - intros x y Hx Hy. apply spinless_ok in Hx, Hy. apply addr_inj; tauto.
Qed.

Lemma spinless_nth na nb s t : length s = norb -> length t = norb -> count s = na -> count t = nb ->
  nth_error (spinless_addrs norb (na + nb) (na, nb)) (addr norb na s * num_strings norb nb + addr norb nb t)
  = Some (addr (2 * norb) (na + nb) (s ++ t)).
Proof.
  intros. unfold spinless_addrs. cbn [fst snd]. fold (pairs (strs norb na) (strs norb nb)).
  apply (map_nth_error (addr (2 * norb) (na + nb))). rewrite <- (strs_length norb nb). apply nth_pairs; apply addr_nth; auto.
Qed.

Context {K : star_ring}.

Lemma ss_at na nb (c : mat K) s t : length s = norb -> length t = norb -> count s = na -> count t = nb ->
  ss2spinless norb (na + nb) (na, nb) c (addr (2 * norb) (na + nb) (s ++ t))
  = sgn_mul (odd_spins (na, nb)) (c (addr norb na s) (addr norb nb t)).
Proof.
  intros Hs Ht Hca Hcb. unfold ss2spinless, scatter.
  rewrite (index_of_nth _ _ _ (spinless_NoDup na nb) (spinless_nth na nb s t Hs Ht Hca Hcb)).
  cbn [snd]. cbv zeta. pose proof (addr_lt norb nb t Ht Hcb).
  f_equal. f_equal.
  - rewrite Nat.div_add_l by lia. rewrite Nat.div_small; lia.
  - rewrite Nat.add_comm, Nat.mod_add by lia. apply Nat.mod_small; auto.
Qed.

Lemma ss_other na nb na' nb' (c : mat K) s t : length s = norb -> length t = norb -> count s = na' -> count t = nb' ->
  na' + nb' = na + nb -> na' <> na ->
  ss2spinless norb (na + nb) (na, nb) c (addr (2 * norb) (na + nb) (s ++ t)) = s0.
Proof.
  intros Hs Ht Hca Hcb E Hne. unfold ss2spinless, scatter.
  destruct (index_of _ _) as [i|] eqn:Ei; [|apply sgn_0].
  exfalso. apply index_of_Some, nth_error_In in Ei. unfold spinless_addrs in Ei. cbn [fst snd] in Ei.
  fold (pairs (strs norb na) (strs norb nb)) in Ei. apply in_map_iff in Ei as (x & Ex & Hx).
  pose proof (spinless_ok _ _ _ Hx) as [L1 L2].
  apply addr_inj in Ex; auto; [|rewrite app_length; lia|rewrite count_app; lia].
  apply in_pairs in Hx as (u & v & Hu & Hv & ->). apply in_strs in Hu, Hv.
  apply (f_equal (firstn norb)) in Ex. rewrite !firstn_app in Ex.
  destruct Hu as [Hu1 Hu2]. rewrite Hu1, Hs, Nat.sub_diag in Ex. cbn [firstn] in Ex.
  rewrite !app_nil_r, !firstn_all2 in Ex by lia. subst. lia.
Qed.

(** every address is that of a string, and every string splits *)
Lemma addr_surj n k a : a < num_strings n k -> exists s, length s = n /\ count s = k /\ addr n k s = a.
Proof.
  intros H. rewrite <- strs_length in H. apply nth_error_Some in H.
  destruct (nth_error (strs n k) a) as [s|] eqn:E; [|congruence]. exists s.
  assert (Hin : In s (strs n k)) by (eapply nth_error_In; eauto). apply in_strs in Hin as [H1 H2].
  split; auto. split; auto. pose proof (addr_nth n k s H1 H2) as E2.
  pose proof (strs_NoDup n k) as N. rewrite NoDup_nth_error in N. apply N.
  - apply nth_error_Some; congruence.
  - congruence.
Qed.

Lemma back na nb (f : nat -> K) s t : length s = norb -> length t = norb -> count s = na -> count t = nb ->
  spinless2ss norb (na + nb) (na, nb) f (addr norb na s) (addr norb nb t)
  = sgn_mul (odd_spins (na, nb)) (f (addr (2 * norb) (na + nb) (s ++ t))).
Proof.
  intros Hs Ht Hca Hcb. unfold spinless2ss. f_equal. f_equal. cbn [snd].
  apply nth_error_nth. apply spinless_nth; auto.
Qed.

Lemma round_trip na nb (c : mat K) a b : a < num_strings norb na -> b < num_strings norb nb ->
  spinless2ss norb (na + nb) (na, nb) (ss2spinless norb (na + nb) (na, nb) c) a b = c a b.
Proof.
  intros Ha Hb. destruct (addr_surj _ _ _ Ha) as (s & Hs & Hs' & <-). destruct (addr_surj _ _ _ Hb) as (t & Ht & Ht' & <-).
  rewrite back, ss_at; auto. apply sgn_sgn.
Qed.

Lemma disjoint na nb na' nb' (c : mat K) a b : na' + nb' = na + nb -> (na', nb') <> (na, nb) ->
  a < num_strings norb na' -> b < num_strings norb nb' ->
  spinless2ss norb (na + nb) (na', nb') (ss2spinless norb (na + nb) (na, nb) c) a b = s0.
Proof.
  intros E Hne Ha Hb. destruct (addr_surj _ _ _ Ha) as (s & Hs & Hs' & <-). destruct (addr_surj _ _ _ Hb) as (t & Ht & Ht' & <-).
  rewrite <- E at 1. rewrite back; auto. rewrite E. rewrite (ss_other na nb na' nb'); auto; [apply sgn_0|].
  intros ->. apply Hne. f_equal. lia.
Qed.

(** support: outside its own determinants the vector is zero; all determinants are covered *)
Lemma cover n x : x < num_strings (2 * norb) n ->
  exists na nb s t, na + nb = n /\ length s = norb /\ length t = norb /\ count s = na /\ count t = nb /\
    x = addr (2 * norb) n (s ++ t).
Proof.
  intros H. destruct (addr_surj _ _ _ H) as (u & Hu & Hc & <-).
  exists (count (firstn norb u)), (count (skipn norb u)), (firstn norb u), (skipn norb u).
  rewrite <- count_app, firstn_skipn, firstn_length, skipn_length. intuition lia.
Qed.
End S.

Lemma odd_spins_anti {L} (A B : list L) : NoDup (A ++ B) -> anti (odd_spins (length A, length B)) (A ++ B) (B ++ A).
Proof.
  intros H. unfold odd_spins. cbn [fst snd].
  rewrite <- Nat.bit0_mod, Nat.bit0_odd.
  replace (Nat.eqb (Nat.b2n (Nat.odd (length A * length B))) 1) with (Nat.odd (length A * length B))
    by (destruct (Nat.odd _); reflexivity).
  apply anti_blocks. intros x Hx Hx'. apply NoDup_app_inv in H as (_ & _ & D). apply (D x); auto.
Qed.
