(** Spectator orbital (dummy.py): where add_orbital puts amplitudes, and the round trip. *)
From Coq Require Import List Arith Bool Lia Ring.
From Verif Require Import Base BaseFacts Star Anti SignsModel DetModel DetFacts.
Import ListNotations.
Local Open Scope nat_scope.

(** offset of the strings whose highest bit is [occ] *)
Definition off (norb k : nat) (occ : bool) : nat := if occ then num_strings norb (k + 1) else 0.

Lemma params_a norb na nb oa ob :
  p_ia (dummy_orbital_params norb (na, nb) oa ob) = off norb na oa /\
  p_ja (dummy_orbital_params norb (na, nb) oa ob) = off norb na oa + num_strings norb na.
Proof.
  unfold dummy_orbital_params, off. cbn [fst snd p_ia p_ja]. destruct oa; cbn [fst snd b2n]; [|split; lia].
  rewrite (Nat.add_comm norb 1), (Nat.add_comm na 1). cbn [Nat.add]. rewrite num_S. lia.
Qed.
Lemma params_b norb na nb oa ob :
  p_ib (dummy_orbital_params norb (na, nb) oa ob) = off norb nb ob /\
  p_jb (dummy_orbital_params norb (na, nb) oa ob) = off norb nb ob + num_strings norb nb.
Proof.
  unfold dummy_orbital_params, off. cbn [fst snd p_ib p_jb]. destruct ob; cbn [fst snd b2n]; [|split; lia].
  rewrite (Nat.add_comm norb 1), (Nat.add_comm nb 1). cbn [Nat.add]. rewrite num_S. lia.
Qed.

Lemma addr_top norb k s x : length s = norb -> 
  addr (norb + 1) (k + b2n x) (s ++ [x]) = off norb k x + addr norb k s.
Proof.
  intros H. rewrite (Nat.add_comm norb 1). cbn [Nat.add]. rewrite addr_snoc by auto. unfold off.
  destruct x; cbn [b2n].
  - f_equal. f_equal. lia.
  - rewrite Nat.add_0_r. lia.
Qed.

(** strings with a different highest bit lie outside the window *)
Lemma off_outside norb k k' occ x a : k' + b2n x = k + b2n occ -> x <> occ -> a < num_strings norb k' ->
  (off norb k occ <=? off norb k' x + a) && (off norb k' x + a <? off norb k occ + num_strings norb k) = false.
Proof.
  intros E Hx Ha. unfold off. destruct occ, x; try congruence; cbn [b2n] in E.
  - replace (k + 1) with k' by lia.
    destruct (Nat.leb_spec (num_strings norb k') (0 + a)); [lia|reflexivity].
  - replace (k' + 1) with k by lia.
    destruct (Nat.ltb_spec (num_strings norb k + a) (0 + num_strings norb k)); [lia|].
    apply andb_false_r.
Qed.

Lemma off_inside norb k occ a : a < num_strings norb k ->
  (off norb k occ <=? off norb k occ + a) && (off norb k occ + a <? off norb k occ + num_strings norb k) = true.
Proof. intros H. apply andb_true_intro; split; [apply Nat.leb_le|apply Nat.ltb_lt]; lia. Qed.

Section V.
Context {K : star_ring}.
Add Ring Kr : (sring K).

Lemma sgn_sgn b (x : K) : sgn_mul b (sgn_mul b x) = x.
Proof. destruct b; cbn [sgn_mul]; [ring|auto]. Qed.
Lemma sgn_0 b : sgn_mul b (@s0 K) = s0.
Proof. destruct b; cbn [sgn_mul]; [ring|auto]. Qed.

Lemma add_one_at norb na nb oa ob (c : mat K) ka kb xa xb a b :
  ka + b2n xa = na + b2n oa -> kb + b2n xb = nb + b2n ob ->
  a < num_strings norb ka -> b < num_strings norb kb ->
  add_one (dummy_orbital_params norb (na, nb) oa ob) c (off norb ka xa + a) (off norb kb xb + b)
  = if eqb xa oa && eqb xb ob then sgn_mul (p_neg (dummy_orbital_params norb (na, nb) oa ob)) (c a b) else s0.
Proof.
  intros Ea Eb Ha Hb. unfold add_one.
  destruct (params_a norb na nb oa ob) as [-> ->]. destruct (params_b norb na nb oa ob) as [-> ->].
  destruct (eqb_spec xa oa) as [->|Na].
  - assert (ka = na) as -> by lia. rewrite off_inside by auto. cbn [andb].
    destruct (eqb_spec xb ob) as [->|Nb].
    + assert (kb = nb) as -> by lia. rewrite off_inside by auto.
      replace (off norb na oa + a - off norb na oa) with a by lia.
      replace (off norb nb ob + b - off norb nb ob) with b by lia. auto.
    + rewrite off_outside; auto.
  - rewrite off_outside; auto.
Qed.

Lemma read_add norb na nb oa ob (c : mat K) a b : a < num_strings norb na -> b < num_strings norb nb ->
  let p := dummy_orbital_params norb (na, nb) oa ob in read_one p (add_one p c) a b = c a b.
Proof.
  intros Ha Hb p. unfold read_one, p.
  destruct (params_a norb na nb oa ob) as [-> _]. destruct (params_b norb na nb oa ob) as [-> _].
  rewrite add_one_at; auto. rewrite !eqb_reflx. cbn [andb]. apply sgn_sgn.
Qed.

Lemma read_add_other norb na nb oa ob na' nb' oa' ob' (c : mat K) a b :
  na' + b2n oa' = na + b2n oa -> nb' + b2n ob' = nb + b2n ob -> (oa', ob') <> (oa, ob) ->
  a < num_strings norb na' -> b < num_strings norb nb' ->
  read_one (dummy_orbital_params norb (na', nb') oa' ob') (add_one (dummy_orbital_params norb (na, nb) oa ob) c) a b = s0.
Proof.
  intros Ea Eb Hne Ha Hb. unfold read_one.
  destruct (params_a norb na' nb' oa' ob') as [-> _]. destruct (params_b norb na' nb' oa' ob') as [-> _].
  rewrite add_one_at; auto.
  destruct (eqb_spec oa' oa), (eqb_spec ob' ob); subst; cbn [andb]; try apply sgn_0. congruence.
Qed.

Lemma repack_mats (c : civ K) l : mats (repack c l) = l.
Proof. destruct l as [|m [|m' l]]; cbn; auto; destruct c; auto. Qed.
End V.

(** sign: the new beta operator passes the alpha operators *)
Lemma neg_anti {L} norb oa ob (ya yb : L) (A B : list L) : NoDup (ya :: yb :: A ++ B) ->
  anti (p_neg (dummy_orbital_params norb (length A, length B) oa ob))
    ((if oa then [ya] else []) ++ (if ob then [yb] else []) ++ A ++ B)
    ((if oa then [ya] else []) ++ A ++ (if ob then [yb] else []) ++ B).
Proof.
  intros HN. cbn [dummy_orbital_params p_neg fst snd].
  assert (E : Nat.eqb (b2n ob * (length A mod 2)) 1 = Nat.odd ((if ob then 1 else 0) * length A)).
  { destruct ob; cbn [b2n]; [|reflexivity]. rewrite !Nat.mul_1_l, <- Nat.bit0_mod, Nat.bit0_odd.
    destruct (Nat.odd (length A)); reflexivity. }
  rewrite E. destruct ob.
  - apply NoDup_cons_iff in HN as [_ HN]. apply NoDup_cons_iff in HN as [HN _].
    pose proof (anti_blocks [yb] A) as H. cbn [length] in H.
    assert (D : forall x, In x [yb] -> ~ In x A) by (intros x [<-|[]] Hx; apply HN, in_or_app; auto).
    specialize (H D). pose proof (anti_ctx _ _ _ (if oa then [ya] else []) B H) as H2.
    rewrite <- !app_assoc in H2. exact H2.
  - cbn [app]. constructor.
Qed.
