(** Rotations by spin-adapted singles as rotations of the orbitals. *)
From Coq Require Import List NArith Arith Bool Lia.
From Verif Require Import Base Star FockSpec FockFacts FsuccFacts FockOps UccModel UccProofs SpinRot UccSymSpin.
Import ListNotations.
Section S.
Variable K : star_ring.
Add Ring Kring : (sring K).
Local Open Scope star_scope.
Variable n : nat.
Notation m := (2 * n)%nat.
Notation vec := (vec K).
Definition one_ (p q : nat) : K := if (p =? q)%nat then s1 else s0.
Definition mmul (A B : nat -> nat -> K) (p q : nat) : K := bsum (seq 0 n) (fun k => A p k * B k q).
(** the rotation of orbitals [a] and [i]: column [i] is c i + s a *)
Definition givens (a i : nat) (c s : K) (p q : nat) : K :=
  if (q =? i)%nat then (if (p =? i)%nat then c else if (p =? a)%nat then s else s0)
  else if (q =? a)%nat then (if (p =? a)%nat then c else if (p =? i)%nat then - s else s0)
  else one_ p q.

Lemma bsum_one (f : nat -> K) q : (q < n)%nat -> bsum (seq 0 n) (fun p => one_ p q * f p) = f q.
Proof.
  intros H. rewrite (bsum_single _ (seq 0 n) _ q); [unfold one_; rewrite Nat.eqb_refl; ring|apply seq_NoDup|apply in_seq; lia|].
  intros y _ N. unfold one_. apply Nat.eqb_neq in N. rewrite N. ring.
Qed.
Lemma bsum_two (f : nat -> K) (x y : K) a i : (a < n)%nat -> (i < n)%nat -> a <> i ->
  bsum (seq 0 n) (fun p => (if (p =? i)%nat then x else if (p =? a)%nat then y else s0) * f p) = x * f i + y * f a.
Proof.
  intros Ha Hi N. transitivity (bsum (seq 0 n) (fun p => one_ p i * (x * f p) + one_ p a * (y * f p))).
  - apply bsum_ext. intros p _. unfold one_. destruct (Nat.eqb_spec p i) as [->|N1].
    + assert (E : (i =? a)%nat = false) by (apply Nat.eqb_neq; auto). rewrite E. ring.
    + destruct (p =? a)%nat; ring.
  - rewrite bsum_add, (bsum_one (fun p => x * f p) i), (bsum_one (fun p => y * f p) a) by assumption. reflexivity.
Qed.
Lemma bsum_givens (f : nat -> K) a i c s q : (a < n)%nat -> (i < n)%nat -> a <> i -> (q < n)%nat ->
  bsum (seq 0 n) (fun p => givens a i c s p q * f p) = if (q =? i)%nat then c * f i + s * f a else if (q =? a)%nat then c * f a - s * f i else f q.
Proof.
  intros Ha Hi N Hq. unfold givens. destruct (Nat.eqb_spec q i) as [->|N1]; [now apply bsum_two|]. destruct (Nat.eqb_spec q a) as [->|N2].
  - rewrite (bsum_two f c (- s) i a) by auto. ring.
  - now apply bsum_one.
Qed.
Lemma both_fld a i c s k q o (v : vec) e : (a < n)%nat -> (i < n)%nat -> a <> i -> c * c + s * s = s1 -> spin n o -> (q < n)%nat ->
  both K n a i c s (fld K m k (q + o) v) e = bsum (seq 0 n) (fun p => givens a i c s p q * fld K m k (p + o) (both K n a i c s v) e).
Proof.
  intros Ha Hi N P So Hq. rewrite bsum_givens by assumption. destruct (Nat.eqb_spec q i) as [->|N1]; [now apply both_i|]. destruct (Nat.eqb_spec q a) as [->|N2]; [now apply both_a|now apply both_other].
Qed.

Variable T : Type.
Variables cosT sinT : T -> K.
Hypothesis pyth : forall t, cosT t * cosT t + sinT t * sinT t = s1.
Notation prod := (prod K T cosT sinT m).
Notation pairs := (pairs n T).
Notation fits := (fits n T).
Notation G x := (givens (fst (fst x)) (snd (fst x)) (cosT (snd x)) (sinT (snd x))).
(** the rotations of a list in turn, the first one first *)
Fixpoint orbmat (l : list (nat * nat * T)) : nat -> nat -> K :=
  match l with [] => one_ | x :: l => mmul (orbmat l) (G x) end.
Lemma pairs_cons x l (v : vec) : prod false (pairs (x :: l)) v = prod false (pairs l) (both K n (fst (fst x)) (snd (fst x)) (cosT (snd x)) (sinT (snd x)) v).
Proof. destruct x as [[a i] t]. reflexivity. Qed.
Lemma pairs_v l : forall (u v : vec) e, (forall d, u d = v d) -> prod false (pairs l) u e = prod false (pairs l) v e.
Proof. induction l as [|x l IH]; intros u v e H; [apply H|]. rewrite !pairs_cons. apply IH. intros d. now apply both_v. Qed.
Lemma pairs_l l : forall (x y : K) (u v : vec) e, prod false (pairs l) (fun d => x * u d + y * v d) e = x * prod false (pairs l) u e + y * prod false (pairs l) v e.
Proof.
  induction l as [|z l IH]; intros x y u v e; [reflexivity|]. rewrite !pairs_cons. rewrite <- IH. apply pairs_v. intros d. apply both_l.
Qed.
Lemma pairs_0 l e : prod false (pairs l) (fun _ => s0) e = s0.
Proof. rewrite (pairs_v l _ (fun d => s0 * s0 + s0 * s0) e) by (intros; ring). rewrite (pairs_l l s0 s0 (fun _ => s0) (fun _ => s0)). ring. Qed.
Lemma pairs_sum l {A} (r : list A) (w : A -> K) (f : A -> vec) e : prod false (pairs l) (fun d => bsum r (fun x => w x * f x d)) e = bsum r (fun x => w x * prod false (pairs l) (f x) e).
Proof.
  induction r as [|x r IH]; [apply pairs_0|]. cbn [bsum]. rewrite <- IH.
  rewrite (pairs_v l _ (fun d => w x * f x d + s1 * bsum r (fun x => w x * f x d)) e) by (intros; ring). rewrite pairs_l. ring.
Qed.
(** U x_q = sum_p M_pq x_p U for creators and annihilators *)
Theorem prod_fld l : Forall fits l -> forall k q o (v : vec) e, spin n o -> (q < n)%nat ->
  prod false (pairs l) (fld K m k (q + o) v) e = bsum (seq 0 n) (fun p => orbmat l p q * fld K m k (p + o) (prod false (pairs l) v) e).
Proof.
  intros H. induction H as [|x l (Ha & Hi & N) Hl IH]; intros k q o v e So Hq.
  - cbn [orbmat]. symmetry. rewrite bsum_one by assumption. reflexivity.
  - rewrite !pairs_cons. set (U1 := both K n (fst (fst x)) (snd (fst x)) (cosT (snd x)) (sinT (snd x))).
    rewrite (pairs_v l _ (fun d => bsum (seq 0 n) (fun p => G x p q * fld K m k (p + o) (U1 v) d)) e) by (intros d; now apply both_fld).
    rewrite (pairs_sum l (seq 0 n) (fun p => G x p q) (fun p => fld K m k (p + o) (U1 v))).
    rewrite (bsum_ext K (seq 0 n) _ (fun p => bsum (seq 0 n) (fun r => (orbmat l r p * G x p q) * fld K m k (r + o) (prod false (pairs l) (U1 v)) e))).
    + rewrite bsum_swap. apply bsum_ext. intros r _. cbn [orbmat]. unfold mmul. rewrite bsum_mul_r. reflexivity.
    + intros p I. apply in_seq in I. rewrite (IH k p o (U1 v) e So ltac:(lia)). rewrite bsum_mul_l. apply bsum_ext. intros r _. ring.
Qed.
(** M is orthogonal *)
Lemma givens_orth x q q' : fits x -> (q < n)%nat -> (q' < n)%nat -> bsum (seq 0 n) (fun p => G x p q * G x p q') = one_ q q'.
Proof.
  intros (Ha & Hi & N) Hq Hq'. rewrite bsum_givens by assumption. unfold givens, one_. set (a := fst (fst x)) in *. set (i := snd (fst x)) in *.
  assert (A1 : (a =? i)%nat = false) by (now apply Nat.eqb_neq). assert (A2 : (i =? a)%nat = false) by (apply Nat.eqb_neq; auto).
  pose proof (pyth (snd x)) as P. set (c := cosT (snd x)) in *. set (s := sinT (snd x)) in *.
  destruct (Nat.eqb_spec q i) as [->|N1]; [|destruct (Nat.eqb_spec q a) as [->|N2]].
  - rewrite !Nat.eqb_refl, A1, (Nat.eqb_sym i q'). destruct (Nat.eqb_spec q' i) as [->|M1]; [exact P|]. destruct (Nat.eqb_spec q' a) as [->|M2]; [rewrite A2; ring|].
    rewrite (proj2 (Nat.eqb_neq a q')) by auto. ring.
  - rewrite !Nat.eqb_refl, A1, (Nat.eqb_sym a q'). destruct (Nat.eqb_spec q' i) as [->|M1]; [rewrite A2; ring|]. destruct (Nat.eqb_spec q' a) as [->|M2]; [rewrite A2, <- P; ring|].
    rewrite (proj2 (Nat.eqb_neq i q')) by auto. ring.
  - apply Nat.eqb_neq in N1, N2. destruct (Nat.eqb_spec q' i) as [->|M1]; [now rewrite ?N1, ?N2|]. destruct (Nat.eqb_spec q' a) as [->|M2]; [now rewrite ?N1, ?N2|]. reflexivity.
Qed.
Lemma orbmat_orth l : Forall fits l -> forall q q', (q < n)%nat -> (q' < n)%nat -> bsum (seq 0 n) (fun p => orbmat l p q * orbmat l p q') = one_ q q'.
Proof.
  intros H. induction H as [|x l Hx Hl IH]; intros q q' Hq Hq'; cbn [orbmat].
  - now rewrite bsum_one.
  - unfold mmul. transitivity (bsum (seq 0 n) (fun k => bsum (seq 0 n) (fun k' => one_ k k' * (G x k q * G x k' q')))).
    + transitivity (bsum (seq 0 n) (fun p => bsum (seq 0 n) (fun k => bsum (seq 0 n) (fun k' => (orbmat l p k * orbmat l p k') * (G x k q * G x k' q'))))).
      * apply bsum_ext. intros p _. rewrite bsum_mul_r. apply bsum_ext. intros k _. rewrite bsum_mul_l. apply bsum_ext. intros k' _. ring.
      * rewrite bsum_swap. apply bsum_ext. intros k Ik. rewrite bsum_swap. apply bsum_ext. intros k' Ik'. rewrite <- bsum_mul_r. apply in_seq in Ik, Ik'. rewrite IH by lia. reflexivity.
    + rewrite <- (givens_orth x q q' Hx Hq Hq'). apply bsum_ext. intros k Ik. apply in_seq in Ik.
      rewrite (bsum_ext K (seq 0 n) _ (fun k' => one_ k' k * (G x k q * G x k' q'))) by (intros k' _; unfold one_; now rewrite Nat.eqb_sym).
      now rewrite (bsum_one (fun k' => G x k q * G x k' q') k) by lia.
Qed.

(** ** determinants *)
Definition vac : vec := fun d => if (d =? 0)%N then s1 else s0.
Lemma ann_vac p e : ann K m p vac e = s0.
Proof.
  unfold ann. destruct (bt e p); [reflexivity|]. unfold vac. destruct (N.eqb_spec (sb e p) 0) as [E|E]; [|apply sg_0].
  pose proof (f_equal (fun x => bt x p) E) as B. cbv beta in B. rewrite bt_sb, Nat.eqb_refl, bt_0 in B. discriminate.
Qed.
Lemma gen_vac a i e : FockSpec.gen K m [a] [i] vac e = s0.
Proof. rewrite G_eq, !cre_0 by (intros; apply ann_vac). ring. Qed.
Lemma rot_vac a i (c s : K) e : rot K m [a] [i] c s vac e = vac e.
Proof.
  unfold rot. rewrite gen_vac. rewrite (G_v K m a i _ (fun _ => s0) e) by (intros; apply gen_vac).
  rewrite G_eq, !cre_0; [ring| |]; intros; now apply ann_0.
Qed.
Lemma pairs_vac l e : prod false (pairs l) vac e = vac e.
Proof.
  revert e. induction l as [|x l IH]; intros e; [reflexivity|]. rewrite pairs_cons. rewrite (pairs_v l _ vac e); [apply IH|]. intros d. unfold both.
  rewrite rot_v with (v := vac); [apply rot_vac|]. intros f. apply rot_vac.
Qed.
(** electrons (q, o) in spatial orbital q with spin o *)
Fixpoint slater (l : list (nat * nat)) : vec := match l with [] => vac | (q, o) :: l => cre K m (q + o) (slater l) end.
(** ... in the orbitals that are the columns of [M] *)
Fixpoint slater_in (M : nat -> nat -> K) (l : list (nat * nat)) : vec :=
  match l with [] => vac | (q, o) :: l => fun d => bsum (seq 0 n) (fun p => M p q * cre K m (p + o) (slater_in M l) d) end.
Theorem prod_slater l d : Forall fits l -> Forall (fun x => (fst x < n)%nat /\ spin n (snd x)) d -> forall e,
  prod false (pairs l) (slater d) e = slater_in (orbmat l) d e.
Proof.
  intros H F. induction F as [|[q o] d [Hq So] F IH]; intros e; cbn [slater slater_in]; [apply pairs_vac|]. cbn [fst snd] in *.
  etransitivity; [exact (prod_fld l H true q o (slater d) e So Hq)|]. apply bsum_ext. intros p _. f_equal. cbn [fld]. now apply cre_v.
Qed.
End S.
