(** Inner products of CI vectors are sums over the addresses of their strings. *)
From Coq Require FinFun.
From Coq Require Import List ZArith NArith Arith Bool Lia Ring.
From Verif Require Import Base BaseFacts Star FockSpec FockFacts FockOps LprodSpec DetModel DetFacts DetSpinless HalfSpec HalfFacts.
Import ListNotations.
Local Open Scope nat_scope.

Lemma addr_strs n k : map (addr n k) (strs n k) = seq 0 (num_strings n k).
Proof.
  apply nth_ext with (d := 0) (d' := 0); [now rewrite map_length, strs_length, seq_length|]. intros i Hi. rewrite map_length, strs_length in Hi.
  rewrite seq_nth by exact Hi. cbn [Nat.add]. rewrite <- (strs_length n k) in Hi. rewrite nth_indep with (d' := addr n k []) by (rewrite map_length; exact Hi). rewrite map_nth.
  set (s := nth i (strs n k) []). pose proof (nth_error_nth' (strs n k) [] Hi) as E. fold s in E.
  assert (Hs : In s (strs n k)) by (apply nth_In; exact Hi). apply in_strs in Hs as [H1 H2]. pose proof (addr_nth n k s H1 H2) as E'.
  pose proof (strs_NoDup n k) as ND. rewrite NoDup_nth_error in ND. apply ND; [|congruence]. apply nth_error_Some. congruence.
Qed.
Lemma nodup_prod {A B} (l1 : list A) (l2 : list B) : NoDup l1 -> NoDup l2 -> NoDup (list_prod l1 l2).
Proof.
  intros H1 H2. induction H1 as [|a l1 Ha H1 IH]; cbn [list_prod]; [constructor|]. apply NoDup_app_intro; [|exact IH|].
  - apply FinFun.Injective_map_NoDup; [intros x y [= E]; exact E|exact H2].
  - intros [x y] I1 I2. apply in_map_iff in I1 as (z & [= <- <-] & _). apply in_prod_iff in I2 as [I2 _]. auto.
Qed.
(** determinant with given strings *)
Definition enc (a b : list bool) : N := N.of_nat (val (b ++ a)).
Lemma bt_val s q : bt (N.of_nat (val s)) q = nth q s false.
Proof.
  revert q. induction s as [|x s IH]; intros q; [unfold bt; cbn [val]; rewrite N.bits_0; now destruct q|]. cbn [val].
  unfold bt in *. destruct q as [|q].
  - cbn [nth]. change (N.of_nat 0) with 0%N. rewrite N.bit0_odd, <- (N.negb_even). destruct x; cbn [b2n].
    + replace (N.of_nat (1 + 2 * val s)) with (1 + 2 * N.of_nat (val s))%N by lia. rewrite N.even_add_mul_2. reflexivity.
    + replace (N.of_nat (0 + 2 * val s)) with (0 + 2 * N.of_nat (val s))%N by lia. rewrite N.even_add_mul_2. reflexivity.
  - cbn [nth]. rewrite <- IH. replace (N.of_nat (S q)) with (N.succ (N.of_nat q)) by lia. destruct x; cbn [b2n].
    + replace (N.of_nat (1 + 2 * val s)) with (2 * N.of_nat (val s) + 1)%N by lia. rewrite N.testbit_odd_succ by lia. reflexivity.
    + replace (N.of_nat (0 + 2 * val s)) with (2 * N.of_nat (val s))%N by lia. rewrite N.testbit_even_succ by lia. reflexivity.
Qed.
Lemma bits_nth s from n t : length s = n -> bits (N.of_nat (val t)) from n = s <-> forall k, k < n -> nth (from + k) t false = nth k s false.
Proof.
  intros L. split.
  - intros E k Hk. rewrite <- bt_val, <- E. unfold bits. rewrite nth_indep with (d' := bt (N.of_nat (val t)) (from + 0)) by (rewrite map_length, seq_length; exact Hk).
    rewrite (map_nth (fun k => bt (N.of_nat (val t)) (from + k))), seq_nth by exact Hk. reflexivity.
  - intros H. apply nth_ext with (d := false) (d' := false); [now rewrite bits_length|]. intros k Hk. rewrite bits_length in Hk. rewrite <- H by exact Hk. unfold bits. rewrite nth_indep with (d' := bt (N.of_nat (val t)) (from + 0)) by (rewrite map_length, seq_length; exact Hk).
    rewrite (map_nth (fun k => bt (N.of_nat (val t)) (from + k))), seq_nth by exact Hk. apply bt_val.
Qed.
Lemma bits_enc a b n : length a = n -> length b = n -> bits (enc a b) n n = a /\ bits (enc a b) 0 n = b.
Proof.
  intros La Lb. unfold enc. split; apply bits_nth; auto; intros k Hk.
  - rewrite app_nth2 by lia. f_equal. lia.
  - cbn [Nat.add]. rewrite app_nth1 by lia. reflexivity.
Qed.
Lemma enc_bits d n : (d < 2 ^ N.of_nat (2 * n))%N -> enc (bits d n n) (bits d 0 n) = d.
Proof.
  intros Hd. apply N.bits_inj. intros q. unfold enc. rewrite <- (N2Nat.id q). change (bt (N.of_nat (val (bits d 0 n ++ bits d n n))) (N.to_nat q) = bt d (N.to_nat q)). set (m := N.to_nat q). rewrite bt_val.
  assert (G : forall f k, k < n -> nth k (bits d f n) false = bt d (f + k)).
  { intros f k Hk. unfold bits. rewrite nth_indep with (d' := bt d (f + 0)) by (rewrite map_length, seq_length; exact Hk). rewrite (map_nth (fun k => bt d (f + k))), seq_nth by exact Hk. reflexivity. }
  destruct (Nat.lt_ge_cases m n) as [H|H]; [rewrite app_nth1 by (rewrite bits_length; exact H); apply G; exact H|]. rewrite app_nth2 by (rewrite bits_length; exact H). rewrite bits_length.
  destruct (Nat.lt_ge_cases m (2 * n)) as [H2|H2]; [rewrite G by lia; f_equal; lia|]. rewrite nth_overflow by (rewrite bits_length; lia). symmetry. unfold bt. 
  destruct (N.eq_dec d 0) as [->|Hz]; [apply N.bits_0|]. apply N.bits_above_log2. apply N.log2_lt_pow2; [lia|]. eapply N.lt_le_trans; [exact Hd|]. apply N.pow_le_mono_r; lia.
Qed.

Section Inner.
  Context {K : star_ring}.
  Add Ring Kr : (sring K).
  Notation mat := (DetModel.mat K).
  Lemma bsum_strs n k (F : nat -> K) : bsum (strs n k) (fun s => F (addr n k s)) = bsum (seq 0 (num_strings n k)) F.
  Proof. rewrite <- addr_strs. rewrite bsum_map. reflexivity. Qed.
  Lemma inner_civec n ne (c c' : mat) : inner K (2 * n) (civec n ne c) (civec n ne c') =
    bsum (seq 0 (num_strings n (fst ne))) (fun x => bsum (seq 0 (num_strings n (snd ne))) (fun y => smul (sconj (c x y)) (c' x y))).
  Proof.
    unfold inner. rewrite (bsum_support K N.eq_dec (dets (2 * n)) (map (fun p => enc (fst p) (snd p)) (list_prod (strs n (fst ne)) (strs n (snd ne))))).
    - rewrite bsum_map, bsum_list_prod. rewrite <- bsum_strs. apply bsum_ext. intros a Ha. rewrite <- bsum_strs. apply bsum_ext. intros b Hb. cbn [fst snd].
      apply in_strs in Ha as [La Ca], Hb as [Lb Cb]. destruct (bits_enc a b n La Lb) as [Ea Eb]. unfold civec. rewrite Ea, Eb, Ca, Cb, !Nat.eqb_refl. reflexivity.
    - apply NoDup_map_on.
      + apply nodup_prod; apply strs_NoDup.
      + intros [a b] [a' b'] H1 H2 E. cbn [fst snd] in E. apply in_prod_iff in H1 as [Ha Hb], H2 as [Ha' Hb']. apply in_strs in Ha as [La _], Hb as [Lb _], Ha' as [La' _], Hb' as [Lb' _].
        destruct (bits_enc a b n La Lb) as [Ea Eb]. destruct (bits_enc a' b' n La' Lb') as [Ea' Eb']. rewrite E in Ea, Eb. congruence.
    - apply NoDup_dets.
    - intros d Hd. apply in_map_iff in Hd as ([a b] & <- & Hp). apply in_prod_iff in Hp as [Ha Hb]. apply in_strs in Ha as [La _], Hb as [Lb _]. apply in_dets. unfold enc.
      replace (2 ^ N.of_nat (2 * n))%N with (N.of_nat (2 ^ (2 * n))) by (rewrite Nat2N.inj_pow; reflexivity). cbn [fst snd]. pose proof (val_lt (b ++ a)) as V. rewrite app_length, La, Lb in V. replace (n + n) with (2 * n) in V by lia. lia.
    - intros d Hd Hn. apply in_dets in Hd. unfold civec at 1. destruct (Nat.eqb_spec (DetModel.count (bits d n n)) (fst ne)) as [E1|]; cbn [andb]; [|rewrite sconj_0; ring].
      destruct (Nat.eqb_spec (DetModel.count (bits d 0 n)) (snd ne)) as [E2|]; [|rewrite sconj_0; ring]. exfalso. apply Hn. apply in_map_iff. exists (bits d n n, bits d 0 n). cbn [fst snd]. split; [now apply enc_bits|].
      apply in_prod; apply in_strs; split; auto using bits_length.
  Qed.
  Lemma inner_other n ne ne' (c c' : mat) : ne <> ne' -> inner K (2 * n) (civec n ne c) (civec n ne' c') = s0.
  Proof.
    intros H. apply bsum_0. intros d _. unfold civec. destruct ne as [a b], ne' as [a' b']. cbn [fst snd].
    destruct (Nat.eqb_spec (DetModel.count (bits d n n)) a) as [<-|]; cbn [andb]; [|rewrite sconj_0; ring]. destruct (Nat.eqb_spec (DetModel.count (bits d 0 n)) b) as [<-|]; [|rewrite sconj_0; ring].
    destruct (Nat.eqb_spec (DetModel.count (bits d n n)) a') as [<-|]; cbn [andb]; [|ring]. destruct (Nat.eqb_spec (DetModel.count (bits d 0 n)) b') as [<-|]; [|ring]. congruence.
  Qed.
End Inner.
