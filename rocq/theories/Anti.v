(** Reordering of words of pairwise anticommuting letters.  [anti b u v]: [v] is obtained from [u] by
    exchanges of adjacent, different letters; [b] is the parity of their number.  This is the
    specification of every sign factor. *)
From Coq Require Import List Arith Lia Bool.
Import ListNotations.

Inductive anti {A : Type} : bool -> list A -> list A -> Prop :=
| anti_refl l : anti false l l
| anti_swap b l u v x y : x <> y -> anti b l (u ++ x :: y :: v) -> anti (negb b) l (u ++ y :: x :: v).

Definition sign_of (b : bool) : nat := if b then 1 else 0.

Section A.
Context {A : Type}.
Implicit Types l u v : list A.

Lemma anti_cast b b' l u : anti b l u -> b = b' -> anti b' l u.
Proof. intros H <-; auto. Qed.

Lemma anti_trans b b' l u v : anti b l u -> anti b' u v -> anti (xorb b b') l v.
Proof.
  intros H1 H2. induction H2.
  - rewrite xorb_false_r; auto.
  - eapply anti_cast; [apply anti_swap; eauto|]. destruct b, b0; auto.
Qed.

Lemma anti_ctx b u v (p q : list A) : anti b u v -> anti b (p ++ u ++ q) (p ++ v ++ q).
Proof.
  induction 1; [constructor|].
  replace (p ++ (u ++ y :: x :: v) ++ q) with ((p ++ u) ++ y :: x :: (v ++ q)).
  - apply anti_swap; auto. rewrite <- !app_assoc in *. cbn in *. auto.
  - rewrite <- !app_assoc. cbn. auto.
Qed.

Lemma anti_one x v : ~ In x v -> anti (Nat.odd (length v)) (x :: v) (v ++ [x]).
Proof.
  induction v as [|y v IH]; intros H; [constructor|]. cbn in H.
  assert (H1 : anti true (x :: y :: v) (y :: x :: v)).
  { apply (anti_swap false _ [] v x y); [intros ->; tauto|]. constructor. }
  assert (H2 : anti (Nat.odd (length v)) (y :: x :: v) (y :: v ++ [x])).
  { pose proof (anti_ctx _ _ _ [y] [] (IH ltac:(tauto))) as H2. rewrite !app_nil_r in H2. exact H2. }
  eapply anti_cast; [exact (anti_trans _ _ _ _ _ H1 H2)|].
  cbn [length]. rewrite Nat.odd_succ, <- Nat.negb_odd. destruct (Nat.odd (length v)); auto.
Qed.

(** exchange of two adjacent blocks without common letters *)
Lemma anti_blocks u v : (forall x, In x u -> ~ In x v) ->
  anti (Nat.odd (length u * length v)) (u ++ v) (v ++ u).
Proof.
  induction u as [|x u IH]; intros H.
  - cbn. rewrite app_nil_r. constructor.
  - assert (H1 : anti (Nat.odd (length u * length v)) (x :: u ++ v) (x :: v ++ u)).
    { pose proof (anti_ctx _ _ _ [x] [] (IH ltac:(intros; apply H; right; auto))) as H1.
      rewrite !app_nil_r in H1. exact H1. }
    assert (H2 : anti (Nat.odd (length v)) (x :: v ++ u) (v ++ x :: u)).
    { pose proof (anti_ctx _ _ _ [] u (anti_one x v ltac:(apply H; left; auto))) as H2.
      cbn in H2. rewrite <- app_assoc in H2. exact H2. }
    eapply anti_cast; [exact (anti_trans _ _ _ _ _ H1 H2)|].
    cbn [length]. rewrite Nat.mul_succ_l, Nat.odd_add. auto.
Qed.

(** stable partition of a sequence of blocks: unselected first, selected last *)
Definition allw (bs : list (bool * list A)) : list A := concat (map snd bs).
Definition unsel (bs : list (bool * list A)) : list A :=
  concat (map snd (filter (fun p => negb (fst p)) bs)).
Definition sel (bs : list (bool * list A)) : list A := concat (map snd (filter fst bs)).
Fixpoint crossings (bs : list (bool * list A)) : nat :=
  match bs with
  | [] => 0
  | (true, b) :: r => length b * length (unsel r) + crossings r
  | (false, _) :: r => crossings r
  end.

Lemma in_unsel x bs : In x (unsel bs) -> In x (allw bs).
Proof.
  unfold unsel, allw. rewrite !in_concat. intros (w & Hw & Hx). exists w; split; auto.
  apply in_map_iff in Hw as (p & <- & Hp). apply filter_In in Hp as [Hp _]. apply in_map; auto.
Qed.

Lemma NoDup_app_disj u v : NoDup (u ++ v) -> NoDup v /\ forall x, In x u -> ~ In x v.
Proof.
  induction u as [|y u IH]; cbn; intros H; [split; auto|].
  inversion H as [|? ? H1 H2]; subst. destruct (IH H2) as [A1 A2]. split; auto.
  intros x [<-|Hx]; auto. intros Hv; apply H1. apply in_or_app; auto.
Qed.

Lemma anti_partition bs : NoDup (allw bs) ->
  anti (Nat.odd (crossings bs)) (allw bs) (unsel bs ++ sel bs).
Proof.
  induction bs as [|[[|] b] bs IH]; intros HN.
  - constructor.
  - change (allw ((true, b) :: bs)) with (b ++ allw bs) in *.
    change (unsel ((true, b) :: bs)) with (unsel bs).
    change (sel ((true, b) :: bs)) with (b ++ sel bs).
    apply NoDup_app_disj in HN as [HN HD].
    pose proof (anti_ctx _ _ _ b [] (IH HN)) as H1. rewrite !app_nil_r in H1.
    assert (H2 : anti (Nat.odd (length b * length (unsel bs))) (b ++ unsel bs) (unsel bs ++ b)).
    { apply anti_blocks. intros x Hx Hu. apply (HD x Hx). apply in_unsel; auto. }
    pose proof (anti_ctx _ _ _ [] (sel bs) H2) as H3. cbn [app] in H3. rewrite <- !app_assoc in H3.
    eapply anti_cast; [exact (anti_trans _ _ _ _ _ H1 H3)|].
    cbn [crossings]. rewrite Nat.odd_add. apply xorb_comm.
  - change (allw ((false, b) :: bs)) with (b ++ allw bs) in *.
    change (unsel ((false, b) :: bs)) with (b ++ unsel bs).
    change (sel ((false, b) :: bs)) with (sel bs).
    apply NoDup_app_disj in HN as [HN HD].
    pose proof (anti_ctx _ _ _ b [] (IH HN)) as H1. rewrite !app_nil_r in H1.
    rewrite <- app_assoc. exact H1.
Qed.
End A.

(** The parity is determined by the two words: count inversions. *)
Definition ninv1 (x : nat) (l : list nat) : nat := length (filter (fun y => y <? x) l).
Fixpoint ninv (l : list nat) : nat :=
  match l with [] => 0 | x :: r => ninv1 x r + ninv r end.

Lemma ninv1_app x u v : ninv1 x (u ++ v) = ninv1 x u + ninv1 x v.
Proof. unfold ninv1. rewrite filter_app, app_length. auto. Qed.

Lemma ninv_swap u x y v : x <> y ->
  Nat.odd (ninv (u ++ y :: x :: v)) = negb (Nat.odd (ninv (u ++ x :: y :: v))).
Proof.
  intros Hne. induction u as [|z u IH].
  - cbn [app ninv]. unfold ninv1 at 1 3. cbn [filter].
    destruct (Nat.ltb_spec x y), (Nat.ltb_spec y x); try lia; cbn [length];
    fold (ninv1 y v) (ninv1 x v).
    + replace (S (ninv1 y v) + (ninv1 x v + ninv v)) with (S (ninv1 x v + (ninv1 y v + ninv v))) by lia.
      rewrite Nat.odd_succ, <- Nat.negb_odd. auto.
    + replace (S (ninv1 x v) + (ninv1 y v + ninv v)) with (S (ninv1 y v + (ninv1 x v + ninv v))) by lia.
      rewrite Nat.odd_succ, <- Nat.negb_odd, negb_involutive. auto.
  - cbn [app ninv]. rewrite !Nat.odd_add, IH.
    replace (ninv1 z (u ++ y :: x :: v)) with (ninv1 z (u ++ x :: y :: v)).
    + destruct (Nat.odd (ninv1 z (u ++ x :: y :: v))), (Nat.odd (ninv (u ++ x :: y :: v))); auto.
    + change (y :: x :: v) with ([y] ++ [x] ++ v). change (x :: y :: v) with ([x] ++ [y] ++ v).
      rewrite !ninv1_app. lia.
Qed.

Lemma anti_parity b l l' : anti b l l' -> b = xorb (Nat.odd (ninv l)) (Nat.odd (ninv l')).
Proof.
  induction 1 as [|b l u v x y Hne H IH].
  - rewrite xorb_nilpotent; auto.
  - rewrite ninv_swap by auto. rewrite IH. destruct (Nat.odd (ninv l)), (Nat.odd (ninv (u ++ x :: y :: v))); auto.
Qed.

Theorem anti_unique b b' (l l' : list nat) : anti b l l' -> anti b' l l' -> b = b'.
Proof. intros H1%anti_parity H2%anti_parity. congruence. Qed.
