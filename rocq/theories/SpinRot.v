(** Rotations generated by single excitations: how they act on creators and annihilators, and on sums
    over all orbitals of one spin. *)
From Coq Require Import List NArith Arith Bool Lia Ring.
From Verif Require Import Star FockSpec FockFacts FockOps.
Import ListNotations.

Section S.
Variable K : star_ring.
Add Ring Kring : (sring K).
Local Open Scope star_scope.
Notation vec := (vec K).
Notation cre := (cre K). Notation ann := (ann K). Notation gen := (gen K). Notation rot := (rot K).

Section One.
Variable m : nat.
Lemma cre_v p (u v : vec) e : (forall d, u d = v d) -> cre m p u e = cre m p v e.
Proof. intros H. unfold FockSpec.cre. now rewrite H. Qed.
Lemma ann_v p (u v : vec) e : (forall d, u d = v d) -> ann m p u e = ann m p v e.
Proof. intros H. unfold FockSpec.ann. now rewrite H. Qed.
Lemma cre_l p (x y : K) (u v : vec) e : cre m p (fun d => x * u d + y * v d) e = x * cre m p u e + y * cre m p v e.
Proof. unfold FockSpec.cre. destruct (bt e p); [|ring]. destruct (above m e p); cbn [sg]; ring. Qed.
Lemma ann_l p (x y : K) (u v : vec) e : ann m p (fun d => x * u d + y * v d) e = x * ann m p u e + y * ann m p v e.
Proof. unfold FockSpec.ann. destruct (bt e p); [ring|]. destruct (above m e p); cbn [sg]; ring. Qed.
Lemma cre_same p (v : vec) e : cre m p (cre m p v) e = s0.
Proof. unfold FockSpec.cre. destruct (bt e p); [|reflexivity]. rewrite bt_cb, Nat.eqb_refl. cbn [negb andb]. apply sg_0. Qed.
Lemma ann_same p (v : vec) e : ann m p (ann m p v) e = s0.
Proof. unfold FockSpec.ann. destruct (bt e p); [reflexivity|]. rewrite bt_sb, Nat.eqb_refl. cbn [orb]. apply sg_0. Qed.
Lemma cre_mul p (x : K) (v : vec) e : cre m p (fun d => x * v d) e = x * cre m p v e.
Proof. transitivity (cre m p (fun d => x * v d + s0 * v d) e); [apply cre_v; intros; ring|]. rewrite cre_l. ring. Qed.
Lemma ann_mul p (x : K) (v : vec) e : ann m p (fun d => x * v d) e = x * ann m p v e.
Proof. transitivity (ann m p (fun d => x * v d + s0 * v d) e); [apply ann_v; intros; ring|]. rewrite ann_l. ring. Qed.

(** the two kinds of field operators *)
Definition fld (k : bool) (p : nat) : vec -> vec := if k then cre m p else ann m p.
Lemma fld_v k p (u v : vec) e : (forall d, u d = v d) -> fld k p u e = fld k p v e.
Proof. destruct k; [apply cre_v | apply ann_v]. Qed.
Lemma fld_l k p (x y : K) (u v : vec) e : fld k p (fun d => x * u d + y * v d) e = x * fld k p u e + y * fld k p v e.
Proof. destruct k; [apply cre_l | apply ann_l]. Qed.

Section Pair.
Variables a i : nat.
Hypothesis Ha : (a < m)%nat.
Hypothesis Hi : (i < m)%nat.
Hypothesis Hai : a <> i.
Notation G := (gen m [a] [i]).
Lemma G_eq (v : vec) d : G v d = cre m a (ann m i v) d - cre m i (ann m a v) d.
Proof. reflexivity. Qed.
Lemma G_v (u v : vec) e : (forall d, u d = v d) -> G u e = G v e.
Proof. intros H. rewrite !G_eq. f_equal; apply cre_v; intros d; now apply ann_v. Qed.
Lemma G_l (x y : K) (u v : vec) e : G (fun d => x * u d + y * v d) e = x * G u e + y * G v e.
Proof.
  rewrite !G_eq. rewrite (cre_v a _ _ e (ann_l i x y u v)), (cre_v i _ _ e (ann_l a x y u v)), !cre_l. ring.
Qed.
Lemma E_cre p q r (v : vec) d : (p < m)%nat -> (q < m)%nat -> (r < m)%nat ->
  cre m p (ann m q (cre m r v)) d = cre m r (cre m p (ann m q v)) d + (if (q =? r)%nat then cre m p v d else s0).
Proof.
  intros Hp Hq Hr. transitivity (cre m p (fun d => (if (q =? r)%nat then s1 else s0) * v d + - s1 * cre m r (ann m q v) d) d).
  - apply cre_v. intros e. pose proof (ann_cre K m q r v e Hq Hr) as H. destruct (q =? r)%nat.
    + transitivity (ann m q (cre m r v) e + cre m r (ann m q v) e - cre m r (ann m q v) e); [ring|]. rewrite H. ring.
    + transitivity (ann m q (cre m r v) e + cre m r (ann m q v) e - cre m r (ann m q v) e); [ring|]. rewrite H. ring.
  - rewrite cre_l, (cre_cre K m p r) by assumption. destruct (q =? r)%nat; ring.
Qed.
Lemma E_ann p q r (v : vec) d : (p < m)%nat -> (q < m)%nat -> (r < m)%nat ->
  cre m p (ann m q (ann m r v)) d = ann m r (cre m p (ann m q v)) d - (if (p =? r)%nat then ann m q v d else s0).
Proof.
  intros Hp Hq Hr. transitivity (cre m p (fun d => - s1 * ann m r (ann m q v) d) d).
  - apply cre_v. intros e. rewrite (ann_ann K m q r) by assumption. ring.
  - rewrite cre_mul. pose proof (ann_cre K m r p (ann m q v) d Hr Hp) as H. rewrite Nat.eqb_sym in H. destruct (p =? r)%nat.
    + transitivity (ann m r (cre m p (ann m q v)) d - (ann m r (cre m p (ann m q v)) d + cre m p (ann m r (ann m q v)) d)); [ring|]. rewrite H. ring.
    + transitivity (ann m r (cre m p (ann m q v)) d - (ann m r (cre m p (ann m q v)) d + cre m p (ann m r (ann m q v)) d)); [ring|]. rewrite H. ring.
Qed.
Lemma fld_sub k r (u v : vec) d : fld k r (fun d => u d - v d) d = fld k r u d - fld k r v d.
Proof. transitivity (fld k r (fun d => s1 * u d + - s1 * v d) d); [apply fld_v; intros; ring|]. rewrite fld_l. ring. Qed.
Lemma cre_s r (u v : vec) d : cre m r (fun d => u d - v d) d = cre m r u d - cre m r v d.
Proof. exact (fld_sub true r u v d). Qed.
Lemma ann_s r (u v : vec) d : ann m r (fun d => u d - v d) d = ann m r u d - ann m r v d.
Proof. exact (fld_sub false r u v d). Qed.
(** [G, x_r] *)
Lemma G_fld k r (v : vec) d : (r < m)%nat ->
  G (fld k r v) d = fld k r (G v) d + (if (r =? i)%nat then fld k a v d else s0) - (if (r =? a)%nat then fld k i v d else s0).
Proof.
  intros Hr. rewrite G_eq. rewrite (fld_v k r (G v) _ d (G_eq v)), fld_sub. destruct k; cbn [fld].
  - rewrite !E_cre by assumption. rewrite (Nat.eqb_sym i r), (Nat.eqb_sym a r). ring.
  - rewrite !E_ann by assumption. rewrite (Nat.eqb_sym i r), (Nat.eqb_sym a r). ring.
Qed.
Lemma ann_cre' p q (v : vec) d : (p < m)%nat -> (q < m)%nat -> p <> q -> ann m p (cre m q v) d = - cre m q (ann m p v) d.
Proof.
  intros Hp Hq N. pose proof (ann_cre K m p q v d Hp Hq) as H. destruct (Nat.eqb_spec p q); [contradiction|].
  transitivity (ann m p (cre m q v) d + cre m q (ann m p v) d - cre m q (ann m p v) d); [ring|]. rewrite H. ring.
Qed.
Lemma ann_cre1 p (v : vec) d : (p < m)%nat -> ann m p (cre m p v) d = v d - cre m p (ann m p v) d.
Proof.
  intros Hp. pose proof (ann_cre K m p p v d Hp Hp) as H. rewrite Nat.eqb_refl in H. rewrite <- H. ring.
Qed.
Lemma cre_0 p (v : vec) d : (forall e, v e = s0) -> cre m p v d = s0.
Proof. intros H. unfold FockSpec.cre. rewrite H. destruct (bt d p); [apply sg_0|reflexivity]. Qed.
Lemma ann_0 p (v : vec) d : (forall e, v e = s0) -> ann m p v d = s0.
Proof. intros H. unfold FockSpec.ann. rewrite H. destruct (bt d p); [reflexivity|apply sg_0]. Qed.
End Pair.

(** x_i G = x_a G^2, for both kinds and both orders *)
Lemma xG k a i (v : vec) d : (a < m)%nat -> (i < m)%nat -> a <> i -> fld k i (gen m [a] [i] v) d = fld k a (gen m [a] [i] (gen m [a] [i] v)) d.
Proof.
  intros Ha Hi N. destruct k; cbn [fld].
  - transitivity (cre m i (cre m a (ann m i v)) d).
    { rewrite (cre_v i _ _ d (G_eq a i v)). rewrite (cre_s i (cre m a (ann m i v)) (cre m i (ann m a v)) d). cbn [fld]. rewrite cre_same. ring. }
    rewrite (cre_v a _ _ d (G_eq a i _)), (cre_s a (cre m a (ann m i (gen m [a] [i] v))) (cre m i (ann m a (gen m [a] [i] v))) d). cbn [fld]. rewrite cre_same.
    rewrite (cre_cre K m a i) by assumption.
    assert (E : forall e, ann m a (gen m [a] [i] v) e = s1 * ann m i v e + - s1 * cre m a (ann m a (ann m i v)) e).
    { intros e. rewrite (ann_v a _ _ e (G_eq a i v)), (ann_s a (cre m a (ann m i v)) (cre m i (ann m a v)) e). cbn [fld].
      rewrite ann_cre1 by assumption. rewrite ann_cre' by auto. rewrite (cre_0 i (ann m a (ann m a v))) by (intros; apply ann_same). ring. }
    transitivity (cre m i (cre m a (fun e => s1 * ann m i v e + - s1 * cre m a (ann m a (ann m i v)) e)) d).
    2:{ transitivity (cre m i (cre m a (ann m a (gen m [a] [i] v))) d); [|ring]. apply cre_v. intros e. apply cre_v. intros f. symmetry. apply E. }
    apply cre_v. intros e. rewrite cre_l, cre_same. ring.
  - transitivity (- ann m i (cre m i (ann m a v)) d).
    { rewrite (ann_v i _ _ d (G_eq a i v)), (ann_s i (cre m a (ann m i v)) (cre m i (ann m a v)) d). cbn [fld].
      rewrite (ann_cre' i a) by auto. rewrite (cre_0 a (ann m i (ann m i v))) by (intros; apply ann_same). ring. }
    rewrite (ann_v a _ _ d (G_eq a i _)), (ann_s a (cre m a (ann m i (gen m [a] [i] v))) (cre m i (ann m a (gen m [a] [i] v))) d). cbn [fld].
    rewrite (ann_cre' a i) by auto. rewrite (ann_cre1 a) by assumption.
    assert (E : forall e, ann m i (gen m [a] [i] v) e = - s1 * ann m a v e + s1 * cre m i (ann m i (ann m a v)) e).
    { intros e. rewrite (ann_v i _ _ e (G_eq a i v)), (ann_s i (cre m a (ann m i v)) (cre m i (ann m a v)) e). cbn [fld].
      rewrite ann_cre1 by assumption. rewrite ann_cre' by auto. rewrite (cre_0 a (ann m i (ann m i v))) by (intros; apply ann_same). ring. }
    assert (Z1 : forall e, ann m a (ann m i (gen m [a] [i] v)) e = - cre m i (ann m a (ann m i (ann m a v))) e).
    { intros e. rewrite (ann_v a _ _ e E), ann_l, ann_same, ann_cre' by auto. ring. }
    assert (Z2 : forall e, ann m a (ann m i (gen m [a] [i] v)) e = s0).
    { intros e. rewrite Z1. rewrite cre_0; [ring|]. intros f. rewrite (ann_v a _ (fun g => - s1 * ann m a (ann m i v) g) f).
      - rewrite ann_mul, ann_same. ring.
      - intros g. rewrite (ann_ann K m i a) by assumption. ring. }
    rewrite (cre_0 a (ann m a (ann m i (gen m [a] [i] v)))) by exact Z2. rewrite E.
    rewrite (cre_0 i (ann m a (ann m a (gen m [a] [i] v)))) by (intros; apply ann_same). rewrite ann_cre1 by assumption. ring.
Qed.
Lemma gen_swap a i (v : vec) d : gen m [i] [a] v d = - gen m [a] [i] v d.
Proof. rewrite !G_eq. ring. Qed.
(** x_i G^2 = - x_a G *)
Lemma xGG k a i (v : vec) d : (a < m)%nat -> (i < m)%nat -> a <> i -> fld k i (gen m [a] [i] (gen m [a] [i] v)) d = - fld k a (gen m [a] [i] v) d.
Proof.
  intros Ha Hi N. pose proof (xG k i a v d Hi Ha (not_eq_sym N)) as H.
  assert (E1 : fld k a (gen m [i] [a] v) d = - fld k a (gen m [a] [i] v) d).
  { rewrite (fld_v k a _ (fun e => - s1 * gen m [a] [i] v e + s0 * v e) d) by (intros; rewrite gen_swap; ring). rewrite fld_l. ring. }
  assert (E2 : fld k i (gen m [i] [a] (gen m [i] [a] v)) d = fld k i (gen m [a] [i] (gen m [a] [i] v)) d).
  { apply fld_v. intros e. rewrite gen_swap. rewrite (G_v a i _ (fun e => - s1 * gen m [a] [i] v e + s0 * v e) e) by (intros; rewrite gen_swap; ring). rewrite G_l. ring. }
  rewrite <- E2, <- H, E1. reflexivity.
Qed.

(** rotations of field operators *)
Section Rot.
Variables a i : nat.
Hypothesis Ha : (a < m)%nat.
Hypothesis Hi : (i < m)%nat.
Hypothesis Hai : a <> i.
Variables c s : K.
Hypothesis P : c * c + s * s = s1.
Notation G := (gen m [a] [i]).
Notation Rt := (rot m [a] [i] c s).
Lemma fld_rot k p (v : vec) d : fld k p (Rt v) d = fld k p v d + s * fld k p (G v) d + (s1 - c) * fld k p (G (G v)) d.
Proof.
  rewrite (fld_v k p (Rt v) (fun e => s1 * (s1 * v e + s * G v e) + (s1 - c) * G (G v) e) d) by (intros; unfold FockSpec.rot; ring).
  rewrite fld_l. rewrite (fld_l k p s1 s v (G v)). ring.
Qed.
Lemma GG_fld k r (v : vec) d : (r < m)%nat -> G (G (fld k r v)) d =
  fld k r (G (G v)) d + (if (r =? i)%nat then (s1 + s1) * fld k a (G v) d - fld k i v d else s0) - (if (r =? a)%nat then (s1 + s1) * fld k i (G v) d + fld k a v d else s0).
Proof.
  intros Hr.
  assert (E : forall e, G (fld k r v) e = s1 * (s1 * fld k r (G v) e + (if (r =? i)%nat then s1 else s0) * fld k a v e) + (if (r =? a)%nat then - s1 else s0) * fld k i v e).
  { intros e. rewrite G_fld by assumption. destruct (r =? i)%nat, (r =? a)%nat; ring. }
  rewrite (G_v a i _ _ d E), G_l. rewrite (G_l a i s1 _ (fld k r (G v)) (fld k a v)). rewrite !G_fld by assumption.
  assert (A1 : (a =? i)%nat = false) by (apply Nat.eqb_neq; auto). assert (A2 : (i =? a)%nat = false) by (apply Nat.eqb_neq; auto).
  rewrite !Nat.eqb_refl, ?A1, ?A2.
  destruct (Nat.eqb_spec r i) as [->|N1].
  - rewrite ?A1, ?A2. ring.
  - destruct (Nat.eqb_spec r a) as [->|N2]; ring.
Qed.
Lemma rot_other k r (v : vec) d : (r < m)%nat -> r <> a -> r <> i -> Rt (fld k r v) d = fld k r (Rt v) d.
Proof.
  intros Hr N1 N2. rewrite fld_rot. unfold FockSpec.rot. rewrite GG_fld, G_fld by assumption.
  apply Nat.eqb_neq in N1, N2. rewrite N1, N2. ring.
Qed.
Lemma rot_i k (v : vec) d : Rt (fld k i v) d = c * fld k i (Rt v) d + s * fld k a (Rt v) d.
Proof.
  rewrite !fld_rot. unfold FockSpec.rot. rewrite GG_fld, G_fld by assumption.
  assert (A2 : (i =? a)%nat = false) by (apply Nat.eqb_neq; auto). rewrite Nat.eqb_refl, A2.
  rewrite (xG k a i v d) by assumption. rewrite (xGG k a i v d) by assumption.
  set (x := fld k a (G (G v)) d). set (y := fld k a (G v) d). set (z := fld k i v d). set (w := fld k a v d).
  transitivity (c * z + s * x - (s1 - c) * y + s * w + (s1 - c) * (s1 + s1) * y); [ring|].
  transitivity (c * z + c * s * x - c * (s1 - c) * y + s * w + (s1 - c * c) * y + s * (s1 - c) * x); [ring|].
  replace (s1 - c * c) with (s * s) by (rewrite <- P; ring). ring.
Qed.
Lemma rot_a k (v : vec) d : Rt (fld k a v) d = c * fld k a (Rt v) d - s * fld k i (Rt v) d.
Proof.
  rewrite !fld_rot. unfold FockSpec.rot. rewrite GG_fld, G_fld by assumption.
  assert (A2 : (a =? i)%nat = false) by (apply Nat.eqb_neq; auto). rewrite Nat.eqb_refl, A2.
  rewrite (xG k a i v d) by assumption. rewrite (xGG k a i v d) by assumption.
  set (x := fld k a (G (G v)) d). set (y := fld k a (G v) d). set (z := fld k i v d). set (w := fld k a v d).
  transitivity (c * w + s * y + (s1 - c) * x - s * z - (s1 - c) * (s1 + s1) * x); [ring|].
  transitivity (c * w + c * s * y + c * (s1 - c) * x - s * z - (s1 - c * c) * x + s * (s1 - c) * y); [|].
  - ring.
  - replace (s1 - c * c) with (s * s) by (rewrite <- P; ring). ring.
Qed.
End Rot.
End One.

(** ** the same rotation of both spins *)
Section Spin.
Variable n : nat.
Notation m := (2 * n)%nat.
Definition spin (o : nat) : Prop := o = 0%nat \/ o = n.
(** sum over the orbitals of a creator with spin [o] and an annihilator with spin [o'] *)
Definition trans (o o' : nat) (v : vec) : vec := fun e => bsum (seq 0 n) (fun p => cre m (p + o) (ann m (p + o') v) e).
Lemma rot_v a i (c s : K) (u v : vec) e : (forall d, u d = v d) -> rot m [a] [i] c s u e = rot m [a] [i] c s v e.
Proof.
  intros H. unfold FockSpec.rot. rewrite H. rewrite (G_v m a i u v e H). rewrite (G_v m a i (gen m [a] [i] u) (gen m [a] [i] v) e); [reflexivity|].
  intros d. now apply G_v.
Qed.
Lemma rot_l a i (c s x y : K) (u v : vec) e : rot m [a] [i] c s (fun d => x * u d + y * v d) e = x * rot m [a] [i] c s u e + y * rot m [a] [i] c s v e.
Proof.
  unfold FockSpec.rot. rewrite (G_v m a i (gen m [a] [i] (fun d => x * u d + y * v d)) _ e (G_l m a i x y u v)), !G_l. ring.
Qed.
Section PairRot.
Variables a i : nat.
Hypothesis Ha : (a < n)%nat.
Hypothesis Hi : (i < n)%nat.
Hypothesis Hai : a <> i.
Variables c s : K.
Hypothesis P : c * c + s * s = s1.
Definition both (v : vec) : vec := rot m [(a + n)%nat] [(i + n)%nat] c s (rot m [a] [i] c s v).
Lemma both_v (u v : vec) e : (forall d, u d = v d) -> both u e = both v e.
Proof. intros H. apply rot_v. intros d. now apply rot_v. Qed.
Lemma both_l (x y : K) (u v : vec) e : both (fun d => x * u d + y * v d) e = x * both u e + y * both v e.
Proof. unfold both. rewrite (rot_v _ _ c s _ _ e (rot_l a i c s x y u v)). apply rot_l. Qed.
Lemma both_sum {A} (l : list A) (f : A -> vec) e : both (fun d => bsum l (fun x => f x d)) e = bsum l (fun x => both (f x) e).
Proof.
  induction l as [|x l IH].
  - cbn [bsum]. rewrite (both_v _ (fun d => s0 * s0 + s0 * s0) e) by (intros; ring). rewrite (both_l s0 s0 (fun _ => s0) (fun _ => s0)). ring.
  - cbn [bsum]. rewrite <- IH. rewrite (both_v _ (fun d => s1 * f x d + s1 * bsum l (fun x => f x d)) e) by (intros; ring).
    rewrite (both_l s1 s1 (f x) (fun d => bsum l (fun x => f x d))). ring.
Qed.
Lemma both_other k p o (v : vec) e : spin o -> (p < n)%nat -> p <> a -> p <> i -> both (fld m k (p + o) v) e = fld m k (p + o) (both v) e.
Proof.
  intros [->| ->] Hp N1 N2; unfold both.
  - rewrite (rot_v _ _ c s _ _ e (fun d => rot_other m a i ltac:(lia) ltac:(lia) Hai c s k (p + 0) v d ltac:(lia) ltac:(lia) ltac:(lia))).
    apply rot_other; lia.
  - rewrite (rot_v _ _ c s _ _ e (fun d => rot_other m a i ltac:(lia) ltac:(lia) Hai c s k (p + n) v d ltac:(lia) ltac:(lia) ltac:(lia))).
    apply rot_other; lia.
Qed.
Lemma both_i k o (v : vec) e : spin o -> both (fld m k (i + o) v) e = c * fld m k (i + o) (both v) e + s * fld m k (a + o) (both v) e.
Proof.
  intros [->| ->]; unfold both.
  - rewrite (rot_v _ _ c s _ (fun d => c * fld m k (i + 0) (rot m [a] [i] c s v) d + s * fld m k (a + 0) (rot m [a] [i] c s v) d) e).
    + rewrite rot_l. f_equal; f_equal; apply rot_other; lia.
    + intros d. rewrite !Nat.add_0_r. apply rot_i; auto; lia.
  - rewrite (rot_v _ _ c s _ _ e (fun d => rot_other m a i ltac:(lia) ltac:(lia) Hai c s k (i + n) v d ltac:(lia) ltac:(lia) ltac:(lia))).
    apply rot_i; auto; lia.
Qed.
Lemma both_a k o (v : vec) e : spin o -> both (fld m k (a + o) v) e = c * fld m k (a + o) (both v) e - s * fld m k (i + o) (both v) e.
Proof.
  intros [->| ->]; unfold both.
  - rewrite (rot_v _ _ c s _ (fun d => c * fld m k (a + 0) (rot m [a] [i] c s v) d + - s * fld m k (i + 0) (rot m [a] [i] c s v) d) e).
    + rewrite rot_l. rewrite !rot_other by lia. ring.
    + intros d. rewrite !Nat.add_0_r. rewrite rot_a by (auto; lia). ring.
  - rewrite (rot_v _ _ c s _ _ e (fun d => rot_other m a i ltac:(lia) ltac:(lia) Hai c s k (a + n) v d ltac:(lia) ltac:(lia) ltac:(lia))).
    apply rot_a; auto; lia.
Qed.
Lemma bsum_pair (f g : nat -> K) : (forall p, (p < n)%nat -> p <> a -> p <> i -> f p = g p) -> f i + f a = g i + g a ->
  bsum (seq 0 n) f = bsum (seq 0 n) g.
Proof.
  intros H E. transitivity (bsum (seq 0 n) (fun p => g p + ((if (p =? i)%nat then f i - g i else s0) + (if (p =? a)%nat then g i - f i else s0)))).
  - apply bsum_ext. intros p I. apply in_seq in I. destruct (Nat.eqb_spec p i) as [->|N1].
    + assert (A2 : (i =? a)%nat = false) by (apply Nat.eqb_neq; auto). rewrite A2. ring.
    + destruct (Nat.eqb_spec p a) as [->|N2]; [|rewrite (H p) by lia; ring].
      transitivity (f i + f a - f i); [ring|]. rewrite E. ring.
  - rewrite !bsum_add.
    rewrite (bsum_single _ (seq 0 n) (fun p => if (p =? i)%nat then f i - g i else s0) i);
      [|apply seq_NoDup | apply in_seq; lia | intros y _ N; apply Nat.eqb_neq in N; now rewrite N].
    rewrite (bsum_single _ (seq 0 n) (fun p => if (p =? a)%nat then g i - f i else s0) a);
      [|apply seq_NoDup | apply in_seq; lia | intros y _ N; apply Nat.eqb_neq in N; now rewrite N].
    rewrite !Nat.eqb_refl. ring.
Qed.
Theorem both_trans o o' (v : vec) e : spin o -> spin o' -> both (trans o o' v) e = trans o o' (both v) e.
Proof.
  intros So So'. unfold trans. rewrite (both_sum (seq 0 n) (fun p => cre m (p + o) (ann m (p + o') v))).
  apply bsum_pair.
  - intros p Hp N1 N2. etransitivity; [exact (both_other true p o (ann m (p + o') v) e So Hp N1 N2)|]. cbn [fld]. apply cre_v. intros d.
    exact (both_other false p o' v d So' Hp N1 N2).
  - pose proof (both_i true o (ann m (i + o') v) e So) as Ei. pose proof (both_a true o (ann m (a + o') v) e So) as Ea. cbn [fld] in Ei, Ea. rewrite Ei, Ea.
    assert (Ri : forall d, both (ann m (i + o') v) d = c * ann m (i + o') (both v) d + s * ann m (a + o') (both v) d) by (intros d; exact (both_i false o' v d So')).
    assert (Ra : forall d, both (ann m (a + o') v) d = c * ann m (a + o') (both v) d + - s * ann m (i + o') (both v) d).
    { intros d. transitivity (c * ann m (a + o') (both v) d - s * ann m (i + o') (both v) d); [exact (both_a false o' v d So')|ring]. }
    rewrite (cre_v m (i + o) _ _ e Ri), (cre_v m (a + o) _ _ e Ri), (cre_v m (i + o) _ _ e Ra), (cre_v m (a + o) _ _ e Ra), !cre_l.
    set (w := cre m (i + o) (ann m (i + o') (both v)) e). set (x := cre m (i + o) (ann m (a + o') (both v)) e).
    set (y := cre m (a + o) (ann m (i + o') (both v)) e). set (z := cre m (a + o) (ann m (a + o') (both v)) e).
    transitivity ((c * c + s * s) * (w + z)); [ring|]. rewrite P. ring.
Qed.
End PairRot.

Variable half : K.
Lemma num_0 (v : vec) e : num K n 0 v e = trans 0 0 v e.
Proof. unfold num, trans. apply bsum_ext. intros p _. now rewrite !Nat.add_0_r. Qed.
Lemma num_n (v : vec) e : num K n n v e = trans n n v e.
Proof.
  unfold num, trans. replace (seq n n) with (map (fun p => p + n)%nat (seq 0 n)); [now rewrite bsum_map|].
  assert (G : forall l b, map (fun p => p + n)%nat (seq b l) = seq (b + n) l) by (induction l as [|l IH]; intros b; cbn; [reflexivity|f_equal; apply IH]). apply G.
Qed.
Lemma Sp_eq (v : vec) e : Splus K n v e = trans 0 n v e.
Proof. unfold Splus, trans. apply bsum_ext. intros p _. now rewrite Nat.add_0_r. Qed.
Lemma Sm_eq (v : vec) e : Sminus K n v e = trans n 0 v e.
Proof. unfold Sminus, trans. apply bsum_ext. intros p _. now rewrite Nat.add_0_r. Qed.
Lemma trans_v o o' (u v : vec) e : (forall d, u d = v d) -> trans o o' u e = trans o o' v e.
Proof. intros H. unfold trans. apply bsum_ext. intros p _. apply cre_v. intros d. now apply ann_v. Qed.
Lemma trans_veq o o' (u v : vec) : spin o -> spin o' -> veq K m u v -> veq K m (trans o o' u) (trans o o' v).
Proof.
  intros So So' H e He. unfold trans. apply bsum_ext. intros p I. apply in_seq in I.
  apply (exop_ext K m [(p + o)%nat] [(p + o')%nat]); [|exact H|exact He]. repeat constructor. destruct So' as [->| ->]; lia.
Qed.
Lemma Ssq_eq (v : vec) e : Ssquare K half n v e =
  half * (half * (trans 0 0 (trans 0 0 v) e - trans 0 0 (trans n n v) e) - half * (trans n n (trans 0 0 v) e - trans n n (trans n n v) e))
  + half * (trans 0 n (trans n 0 v) e + trans n 0 (trans 0 n v) e).
Proof.
  unfold Ssquare. rewrite Sp_eq, Sm_eq, (trans_v 0 n _ _ e (Sm_eq v)), (trans_v n 0 _ _ e (Sp_eq v)). f_equal.
  unfold Sz at 1. rewrite num_0, num_n.
  assert (E : forall o d, trans o o (Sz K half n v) d = half * (trans o o (trans 0 0 v) d - trans o o (trans n n v) d)).
  { intros o d. rewrite (trans_v o o _ (fun d => half * trans 0 0 v d + - half * trans n n v d) d).
    - unfold trans at 1.
      transitivity (bsum (seq 0 n) (fun p => half * cre m (p + o) (ann m (p + o) (trans 0 0 v)) d + - half * cre m (p + o) (ann m (p + o) (trans n n v)) d)).
      + apply bsum_ext. intros p _. rewrite (cre_v m _ _ _ d (ann_l m (p + o) half (- half) (trans 0 0 v) (trans n n v))). apply cre_l.
      + rewrite bsum_add, <- !bsum_mul_l. unfold trans. ring.
    - intros f. unfold Sz. rewrite num_0, num_n. ring. }
  rewrite !E. ring.
Qed.
End Spin.
End S.
