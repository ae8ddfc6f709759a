(** Proofs about blocked addresses (basis.py look-ups). *)
From Coq Require Import List ZArith Lia Bool Arith.
From Verif Require Import Base BaseFacts AddrModel AddrFacts AddrSpec AddrProofs.
Import ListNotations.
Local Open Scope nat_scope.

Lemma before_sum l b : before l b = sum_nat (firstn b l).
Proof. apply sum_nat_fold. Qed.

Lemma before_S l b : b < length l -> before l (S b) = before l b + nth b l 0.
Proof. rewrite !before_sum. apply sum_firstn_S. Qed.

Lemma before_le l a b : a <= b -> before l a <= before l b.
Proof. rewrite !before_sum. apply sum_firstn_le. Qed.

Lemma before_all l : before l (length l) = fold_right Nat.add 0 l.
Proof. unfold before. rewrite firstn_all; auto. Qed.

Lemma searchsorted_count (a : list nat) (v : Z) : forall n, n <= length a ->
  (forall k, k < n -> (Z.of_nat (nth k a 0%nat) <= v)%Z) ->
  (n < length a -> (v < Z.of_nat (nth n a 0%nat))%Z) ->
  searchsorted_right a v = n.
Proof.
  induction a as [|x a IH]; intros [|n] Hn H1 H2; cbn [length searchsorted_right] in *; try lia.
  - specialize (H2 ltac:(lia)). cbn in H2. destruct (Z.leb_spec (Z.of_nat x) v); lia.
  - assert (Hx := H1 0 ltac:(lia)). cbn in Hx. destruct (Z.leb_spec (Z.of_nat x) v); [|lia].
    f_equal. apply IH; [lia| |].
    + intros k Hk. apply (H1 (S k)). lia.
    + intros Hk. apply H2. lia.
Qed.

Lemma searchsorted_offs l b (a : Z) : b < length l ->
  (Z.of_nat (before l b) <= a)%Z ->
  (S b < length l -> (a < Z.of_nat (before l (S b)))%Z) ->
  searchsorted_right (offs0 l) a = S b.
Proof.
  intros Hb H1 H2. apply searchsorted_count; try rewrite offs0_length.
  - lia.
  - intros k Hk. rewrite nth_offs0 by lia. rewrite <- before_sum.
    pose proof (before_le l k b ltac:(lia)). lia.
  - intros Hk. rewrite nth_offs0 by lia. rewrite <- before_sum. auto.
Qed.

Lemma pyindex_offs l b : b < length l -> pyindex (offs0 l) (Z.of_nat b) = Ok (before l b).
Proof.
  intros H. unfold pyindex. destruct (Z.ltb_spec (Z.of_nat b) 0); [lia|].
  destruct (Z.ltb_spec (Z.of_nat b) 0); [lia|]. rewrite Nat2Z.id.
  rewrite (nth_error_nth_some _ _ 0) by (rewrite offs0_length; auto).
  rewrite nth_offs0 by auto. rewrite before_sum; auto.
Qed.

(** the decomposition is the inverse of (block, offset) -> address *)
Lemma split_recompose sizes b c : b < length sizes -> c < nth b sizes 0 ->
  split_addr_by_blocks sizes (Z.of_nat (before sizes b + c)) = Ok (Z.of_nat b, Z.of_nat c).
Proof.
  intros Hb Hc. unfold split_addr_by_blocks.
  rewrite (searchsorted_offs sizes b); auto.
  - replace (Z.of_nat (S b) - 1)%Z with (Z.of_nat b) by lia.
    rewrite pyindex_offs by auto. cbn [bind].
    replace (Z.of_nat (before sizes b + c) - Z.of_nat (before sizes b))%Z with (Z.of_nat c) by lia.
    unfold py_assert. destruct (Z.leb_spec 0 (Z.of_nat c)); [auto|lia].
  - lia.
  - intros _. rewrite before_S by auto. lia.
Qed.

Lemma split_valid sizes a : a < fold_right Nat.add 0 sizes ->
  exists b c, split_addr_by_blocks sizes (Z.of_nat a) = Ok (Z.of_nat b, Z.of_nat c) /\
    b < length sizes /\ c < nth b sizes 0 /\ a = before sizes b + c.
Proof.
  intros H. rewrite sum_nat_fold in H. destruct (find_block sizes a H) as (b & Hb & Hk).
  rewrite <- before_sum in Hk.
  exists b, (a - before sizes b). split; [|lia].
  rewrite <- (split_recompose sizes b) by lia. f_equal. lia.
Qed.

Lemma split_negative sizes a : sizes <> [] -> (a < 0)%Z ->
  split_addr_by_blocks sizes a = Raise AssertionError.
Proof.
  intros Hne Ha. unfold split_addr_by_blocks.
  assert (E : searchsorted_right (offs0 sizes) a = 0).
  { destruct (offs0 sizes) as [|x r]; cbn; auto. destruct (Z.leb_spec (Z.of_nat x) a); lia. }
  rewrite E. cbn [Z.of_nat Z.sub Z.add Z.opp].
  assert (Hl : length sizes <> 0) by (destruct sizes; cbn; congruence).
  unfold pyindex. cbn [Z.ltb Z.compare]. rewrite offs0_length.
  destruct (Z.ltb_spec (-1 + Z.of_nat (length sizes)) 0); [lia|].
  rewrite (nth_error_nth_some _ _ 0) by (rewrite offs0_length; lia).
  cbn [bind]. unfold py_assert.
  match goal with |- context [Z.leb 0 ?x] => destruct (Z.leb_spec 0 x); [lia|auto] end.
Qed.

Lemma split_overflow sizes a : sizes <> [] -> (Z.of_nat (fold_right Nat.add 0%nat sizes) <= a)%Z ->
  split_addr_by_blocks sizes a =
  Ok (Z.of_nat (length sizes) - 1, a - Z.of_nat (before sizes (length sizes - 1)%nat))%Z.
Proof.
  intros Hne Ha. unfold split_addr_by_blocks.
  assert (Hl : length sizes <> 0) by (destruct sizes; cbn; congruence).
  assert (Hle : before sizes (length sizes - 1) <= fold_right Nat.add 0 sizes)
    by (rewrite <- before_all; apply before_le; lia).
  rewrite (searchsorted_offs sizes (length sizes - 1)); [|lia|lia|lia].
  replace (Z.of_nat (S (length sizes - 1)) - 1)%Z with (Z.of_nat (length sizes - 1)) by lia.
  rewrite pyindex_offs by lia. cbn [bind]. unfold py_assert.
  match goal with |- context [Z.leb 0 ?x] => destruct (Z.leb_spec 0 x); [|lia] end.
  f_equal. f_equal. lia.
Qed.

(** ** look-up tables of OrthBasis *)
Definition entry (t : rlookup) (r : nat) : option (option nat) * option (option nat) :=
  (nth_error (root_block t) r, nth_error (root_block_prod_offs t) r).

Definition tlen (t : rlookup) (n : nat) : Prop :=
  length (root_block t) = n /\ length (root_pos t) = n /\ length (root_block_prod_offs t) = n.

Lemma lookup_block_spec nman n : forall b k os t,
  tlen t n -> NoDup b -> Forall (fun r => r < n) b -> length os = length b ->
  tlen (lookup_block nman k b os t) n /\
  (forall r, ~ In r b -> entry (lookup_block nman k b os t) r = entry t r) /\
  (forall i r, nth_error b i = Some r ->
     entry (lookup_block nman k b os t) r = (Some (Some nman), Some (nth_error os i))).
Proof.
  induction b as [|r0 b IH]; intros k os t Ht Hnd Hlt Hlen; destruct os as [|o os]; cbn [length] in Hlen;
    try lia; cbn [lookup_block].
  - repeat split; auto; try apply Ht. intros [|i] r H; discriminate.
  - inversion Hnd as [|? ? Hni Hnd']; subst. inversion Hlt as [|? ? Hr0 Hlt']; subst.
    set (t1 := {| root_block := upd r0 (fun _ => Some nman) (root_block t);
                  root_pos := upd r0 (fun _ => Some k) (root_pos t);
                  root_block_prod_offs := upd r0 (fun _ => Some o) (root_block_prod_offs t) |}).
    assert (Ht1 : tlen t1 n).
    { destruct Ht as (A & B & C). repeat split; cbn; rewrite upd_length; auto. }
    assert (He : entry t1 r0 = (Some (Some nman), Some (Some o))).
    { destruct Ht as (A & B & C). unfold entry, t1; cbn. rewrite !nth_error_upd_eq.
      rewrite !(nth_error_nth_some _ _ None) by lia. reflexivity. }
    assert (Hne : forall r, r <> r0 -> entry t1 r = entry t r).
    { intros r Hr. unfold entry, t1; cbn. rewrite !nth_error_upd_neq by auto. auto. }
    destruct (IH (S k) os t1 Ht1 Hnd' Hlt' ltac:(lia)) as (A & B & C).
    split; [exact A|split].
    + intros r Hr. cbn in Hr. rewrite B by tauto. apply Hne. intros ->; tauto.
    + intros [|i] r Hi; cbn [nth_error] in Hi |- *.
      * injection Hi as <-. rewrite B by auto. auto.
      * apply C; auto.
Qed.

Definition sizes_of nprods (b : list nat) := map (fun iroot => nth iroot nprods 0) b.

Lemma lookup_all_spec nprods n : forall mblocks nman t,
  tlen t n -> NoDup (concat mblocks) -> Forall (fun r => r < n) (concat mblocks) ->
  tlen (lookup_all nprods nman mblocks t) n /\
  (forall r, ~ In r (concat mblocks) -> entry (lookup_all nprods nman mblocks t) r = entry t r) /\
  (forall j b i r, nth_error mblocks j = Some b -> nth_error b i = Some r ->
     entry (lookup_all nprods nman mblocks t) r
     = (Some (Some (nman + j)), Some (Some (before (sizes_of nprods b) i)))).
Proof.
  induction mblocks as [|b0 mblocks IH]; intros nman t Ht Hnd Hlt; cbn [lookup_all concat] in *.
  - repeat split; auto; try apply Ht. intros [|j] b i r H; discriminate.
  - apply Forall_app in Hlt as [Hlt1 Hlt2].
    apply NoDup_app_inv in Hnd as (Hnd1 & Hnd2 & Hdis).
    destruct (lookup_block_spec nman n b0 0 (offs0 (sizes_of nprods b0)) t Ht Hnd1 Hlt1) as (A & B & C).
    { rewrite offs0_length. unfold sizes_of; apply map_length. }
    fold (sizes_of nprods b0).
    destruct (IH (S nman) _ A Hnd2 Hlt2) as (A2 & B2 & C2).
    split; [exact A2|split].
    + intros r Hr. rewrite in_app_iff in Hr. rewrite B2, B by tauto. auto.
    + intros [|j] b i r Hj Hi; cbn [nth_error] in Hj.
      * injection Hj as <-. rewrite B2 by (apply Hdis; apply nth_error_In in Hi; auto).
        rewrite (C i r Hi). rewrite Nat.add_0_r. f_equal. f_equal.
        assert (Hil : i < length b0) by (apply nth_error_Some; congruence).
        assert (Hil2 : i < length (sizes_of nprods b0)) by (unfold sizes_of; rewrite map_length; auto).
        rewrite (nth_error_nth_some _ _ 0) by (rewrite offs0_length; auto).
        rewrite nth_offs0 by auto. rewrite before_sum; auto.
      * rewrite (C2 j b i r Hj Hi). replace (nman + S j) with (S nman + j) by lia. auto.
Qed.

Lemma prod_idx_nth nprods b i r x : Forall (fun r => r < length nprods) b ->
  nth_error b i = Some r -> x < nth r nprods 0 ->
  nth_error (prod_idx nprods b) (before (sizes_of nprods b) i + x) = Some (before nprods r + x).
Proof.
  intros Hlt. revert i; induction Hlt as [|r0 b Hr0 Hlt IH]; intros i Hi Hx.
  - destruct i; discriminate.
  - unfold prod_idx in *. cbn [flat_map]. destruct i as [|i]; cbn [nth_error] in Hi.
    + injection Hi as <-. unfold before at 1. cbn [firstn fold_right Nat.add].
      rewrite nth_error_app1 by (rewrite seq_length; auto).
      rewrite (nth_error_nth_some _ _ 0) by (rewrite seq_length; auto).
      rewrite seq_nth by auto. rewrite nth_offs0 by auto. rewrite before_sum; auto.
    + unfold sizes_of, before at 1. cbn [map firstn fold_right].
      rewrite nth_error_app2 by (rewrite seq_length; lia). rewrite seq_length.
      rewrite <- (IH i Hi Hx). f_equal. unfold before, sizes_of. lia.
Qed.

Section Lookup.
Variables (nprods : list nat) (mblocks : list (list nat)).
Hypothesis Hnd : NoDup (concat mblocks).
Hypothesis Hin : forall r, In r (concat mblocks) <-> r < length nprods.

Lemma orth_lookup_ok : exists t, orth_lookup nprods mblocks = Ok t /\
  forall j b i r, nth_error mblocks j = Some b -> nth_error b i = Some r ->
     entry t r = (Some (Some j), Some (Some (before (sizes_of nprods b) i))).
Proof.
  unfold orth_lookup.
  set (t0 := {| root_block := repeat None (length nprods); root_pos := repeat None (length nprods);
                root_block_prod_offs := repeat None (length nprods) |}).
  assert (Ht0 : tlen t0 (length nprods)) by (repeat split; apply repeat_length).
  assert (Hlt : Forall (fun r => r < length nprods) (concat mblocks))
    by (apply Forall_forall; intros r; apply Hin).
  destruct (lookup_all_spec nprods (length nprods) mblocks 0 t0 Ht0 Hnd Hlt) as (A & _ & C).
  exists (lookup_all nprods 0 mblocks t0). split; [|exact C].
  unfold py_assert. match goal with |- context [forallb ?f ?l] => assert (E : forallb f l = true) end.
  { apply forallb_forall. intros o Ho. apply In_nth_error in Ho as [r Hr].
    assert (Hrl : r < length nprods) by (destruct A as (A1 & _); rewrite <- A1; apply nth_error_Some; congruence).
    apply Hin in Hrl. apply in_concat in Hrl as (b & Hb & Hrb).
    apply In_nth_error in Hb as [j Hj]. apply In_nth_error in Hrb as [i Hi].
    specialize (C j b i r Hj Hi). unfold entry in C. rewrite Hr in C.
    injection C as -> _. auto. }
  rewrite E. auto.
Qed.

Lemma split_rblocks_ok : exists t, orth_lookup nprods mblocks = Ok t /\
  forall a, a < fold_right Nat.add 0 nprods ->
  exists b c mb, split_addr_by_rblocks nprods t (Z.of_nat a) = Ok (b, Z.of_nat c) /\
    nth_error mblocks b = Some mb /\ nth_error (prod_idx nprods mb) c = Some a.
Proof.
  destruct orth_lookup_ok as (t & E & C). exists t; split; [auto|].
  intros a Ha. rewrite sum_nat_fold in Ha. destruct (find_block nprods a Ha) as (r & Hr & Hk).
  rewrite <- before_sum in Hk.
  assert (Hc : In r (concat mblocks)) by (apply Hin; auto).
  apply in_concat in Hc as (mb & Hb & Hrb).
  assert (Hlt : Forall (fun r => r < length nprods) mb).
  { apply Forall_forall. intros r' Hr'. apply Hin. apply in_concat; eauto. }
  apply In_nth_error in Hb as [j Hj]. apply In_nth_error in Hrb as [i Hi].
  exists j, (before (sizes_of nprods mb) i + (a - before nprods r)), mb.
  split; [|split; [auto|]].
  - unfold split_addr_by_rblocks. rewrite (searchsorted_offs nprods r); [|auto|lia|].
    + replace (Z.of_nat (S r) - 1)%Z with (Z.of_nat r) by lia. rewrite pyindex_offs by auto.
      cbn [bind]. destruct (Z.ltb_spec (Z.of_nat r) 0); [lia|]. rewrite Nat2Z.id.
      specialize (C j mb i r Hj Hi). unfold entry in C.
      apply pair_equal_spec in C as [-> ->].
      unfold py_assert. match goal with |- context [Z.leb 0 ?x] => destruct (Z.leb_spec 0 x); [|lia] end.
      f_equal. f_equal. lia.
    + intros _. rewrite before_S by auto. lia.
  - rewrite (prod_idx_nth nprods mb i r); auto; [|lia]. f_equal. lia.
Qed.
End Lookup.

(** A rootspace outside every block makes the constructor fail. *)
Lemma orth_lookup_missing nprods mblocks r :
  NoDup (concat mblocks) -> Forall (fun r => r < length nprods) (concat mblocks) ->
  r < length nprods -> ~ In r (concat mblocks) ->
  orth_lookup nprods mblocks = Raise AssertionError.
Proof.
  intros Hnd Hlt Hr Hni. unfold orth_lookup.
  set (t0 := {| root_block := repeat None (length nprods); root_pos := repeat None (length nprods);
                root_block_prod_offs := repeat None (length nprods) |}).
  assert (Ht0 : tlen t0 (length nprods)) by (repeat split; apply repeat_length).
  destruct (lookup_all_spec nprods (length nprods) mblocks 0 t0 Ht0 Hnd Hlt) as (A & B & _).
  specialize (B r Hni). unfold entry in B. apply pair_equal_spec in B as [B _].
  cbn [root_block t0] in B. rewrite nth_error_repeat in B by auto.
  unfold py_assert. match goal with |- context [forallb ?f ?l] => assert (E : forallb f l = false) end.
  { apply not_true_is_false. intros E. rewrite forallb_forall in E.
    specialize (E None (nth_error_In _ _ B)). discriminate. }
  rewrite E; auto.
Qed.
