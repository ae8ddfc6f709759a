(** Operators on the Fock space: adjoints, linearity, and the rotation generated by an excitation. *)
From Coq Require Import List NArith ZArith Arith Bool Lia Ring Sorting.Permutation.
From Verif Require Import Star FockSpec FockFacts FsuccFacts FsuccProofs.
Import ListNotations.

Definition toggle (p : nat) (d : N) : N := if bt d p then cb d p else sb d p.
Lemma toggle_inv p d : toggle p (toggle p d) = d.
Proof.
  unfold toggle. destruct (bt d p) eqn:B.
  - rewrite bt_cb, Nat.eqb_refl. cbn. now apply sb_cb.
  - rewrite bt_sb, Nat.eqb_refl. cbn. now apply cb_sb.
Qed.
Lemma toggle_perm m p : (p < m)%nat -> Permutation (map (toggle p) (dets m)) (dets m).
Proof.
  intros Hp. apply NoDup_Permutation.
  - apply FinFun.Injective_map_NoDup; [|apply NoDup_dets]. intros x y E. rewrite <- (toggle_inv p x), E. apply toggle_inv.
  - apply NoDup_dets.
  - intros d. rewrite in_map_iff. assert (L : forall e, In e (dets m) -> In (toggle p e) (dets m)).
    { intros e. rewrite !in_dets. intros He. unfold toggle. destruct (bt e p); [now apply cb_lt|now apply sb_lt]. }
    split; [intros [e [<- He]]; now apply L|]. intros Hd. exists (toggle p d). split; [apply toggle_inv|now apply L].
Qed.

Section Ops.
Variable K : star_ring.
Add Ring Kring : (sring K).
Local Open Scope star_scope.
Notation sg := (sg K). Notation cre := (cre K). Notation ann := (ann K).
Notation creL := (creL K). Notation annL := (annL K). Notation exop := (exop K).
Notation vec := (vec K). Notation inner := (inner K). Notation gen := (gen K). Notation veq := (veq K).

Lemma inner_ext m (u u' v v' : vec) : veq m u u' -> veq m v v' -> inner m u v = inner m u' v'.
Proof. intros H1 H2. apply bsum_ext. intros d Hd. apply in_dets in Hd. now rewrite H1, H2. Qed.
Lemma inner_swap m (u v : vec) : inner m v u = sconj (inner m u v).
Proof. unfold FockSpec.inner. rewrite bsum_conj. apply bsum_ext. intros d _. rewrite sconj_mul, sconj_inv. ring. Qed.

Lemma cre_adj m p (u v : vec) : (p < m)%nat -> inner m (cre m p u) v = inner m u (ann m p v).
Proof.
  intros Hp. unfold FockSpec.inner. symmetry.
  transitivity (bsum (map (toggle p) (dets m)) (fun d => sconj (u d) * ann m p v d)).
  { apply bsum_perm, Permutation_sym, toggle_perm, Hp. }
  rewrite bsum_map. apply bsum_ext. intros e _. unfold toggle, FockSpec.cre, FockSpec.ann. destruct (bt e p) eqn:B.
  - rewrite bt_cb, Nat.eqb_refl. cbn. rewrite above_cb_same, sb_cb by assumption. rewrite sg_conj, sg_mul, mul_sg. reflexivity.
  - rewrite bt_sb, Nat.eqb_refl. cbn. rewrite sconj_0. ring.
Qed.
Lemma ann_adj m p (u v : vec) : (p < m)%nat -> inner m (ann m p u) v = inner m u (cre m p v).
Proof. intros Hp. rewrite inner_swap, <- cre_adj by assumption. rewrite <- inner_swap. reflexivity. Qed.

Notation inr m := (Forall (fun q => (q < m)%nat)).
Lemma creL_adj m l : forall u v : vec, inr m l -> inner m (creL m l u) v = inner m u (annL m l v).
Proof.
  induction l as [|a l IH]; intros u v H; [reflexivity|]. inversion H; subst. cbn [FockSpec.creL FockSpec.annL].
  rewrite cre_adj by assumption. now apply IH.
Qed.
Lemma annL_adj m l : forall u v : vec, inr m l -> inner m (annL m l u) v = inner m u (creL m l v).
Proof. intros u v H. rewrite inner_swap, <- creL_adj by assumption. rewrite <- inner_swap. reflexivity. Qed.
Lemma exop_adj m a i (u v : vec) : inr m a -> inr m i -> inner m (exop m a i u) v = inner m u (exop m i a v).
Proof. intros Ha Hi. unfold FockSpec.exop. rewrite creL_adj, annL_adj by assumption. reflexivity. Qed.

(** an operator reads one determinant only *)
Lemma exop_reads m a i e : inr m i ->
  exists (b : bool) (e' : N), (forall v : vec, exop m a i v e = if b then s0 else sg (sigma m a i (clrs e a)) (v e'))
     /\ ((e < 2 ^ N.of_nat m)%N -> (e' < 2 ^ N.of_nat m)%N).
Proof.
  intros Hi. destruct (exop_miss K m a i e) as [[d [-> [Na [Ni Hd]]]]|[_ Z]].
  - exists false, (sets d i). split.
    + intros v. rewrite exop_hit by assumption. now rewrite clrs_sets by (intros; apply Hd, in_or_app; now right).
    + intros He. apply sets_lt; [|assumption]. rewrite <- (clrs_sets d a) by (intros; apply Hd, in_or_app; now right). now apply clrs_lt.
  - exists true, e. split; [intros v; apply Z|auto].
Qed.
Lemma exop_ext m a i (u v : vec) : inr m i -> veq m u v -> veq m (exop m a i u) (exop m a i v).
Proof. intros Hi H e He. destruct (exop_reads m a i e Hi) as [b [e' [E L]]]. rewrite !E. destruct b; [reflexivity|]. now rewrite H by auto. Qed.
Lemma exop_lin m a i (x y : K) (u v : vec) e : inr m i ->
  exop m a i (fun d => x * u d + y * v d) e = x * exop m a i u e + y * exop m a i v e.
Proof.
  intros Hi. destruct (exop_reads m a i e Hi) as [b [e' [E _]]]. rewrite !E. destruct b; [ring|]. rewrite sg_add, !mul_sg. reflexivity.
Qed.

Section Gen.
Variable (m : nat) (a i : list nat).
Hypothesis Ha : inr m a.
Hypothesis Hi : inr m i.
Notation G := (gen m a i).

Lemma gen_ext (u v : vec) : veq m u v -> veq m (G u) (G v).
Proof. intros H e He. unfold FockSpec.gen, vsub. now rewrite (exop_ext m a i u v), (exop_ext m i a u v). Qed.
Lemma gen_lin (x y : K) (u v : vec) e : G (fun d => x * u d + y * v d) e = x * G u e + y * G v e.
Proof. unfold FockSpec.gen, vsub. rewrite !exop_lin by assumption. ring. Qed.
Lemma gen_adj (u v : vec) : inner m (G u) v = - inner m u (G v).
Proof.
  unfold FockSpec.gen.
  assert (L : forall p q w : vec, inner m (vsub K p q) w = inner m p w - inner m q w).
  { intros p q w. unfold FockSpec.inner, vsub. transitivity (bsum (dets m) (fun d => sconj (p d) * w d + - s1 * (sconj (q d) * w d))).
    - apply bsum_ext. intros d _. transitivity (sconj (p d + sg true (q d)) * w d); [f_equal; f_equal; cbn; ring|].
      rewrite sconj_add, sg_conj. cbn. ring.
    - rewrite bsum_add, <- bsum_mul_l. ring. }
  assert (R : forall p q w : vec, inner m w (vsub K p q) = inner m w p - inner m w q).
  { intros p q w. unfold FockSpec.inner, vsub. transitivity (bsum (dets m) (fun d => sconj (w d) * p d + - s1 * (sconj (w d) * q d))).
    - apply bsum_ext. intros d _. ring.
    - rewrite bsum_add, <- bsum_mul_l. ring. }
  rewrite L, R, !exop_adj by assumption. ring.
Qed.
Hypothesis Hd : differ a i.
Lemma gen_cube (v : vec) e : G (G (G v)) e = - G v e.
Proof.
  destruct (gen_miss K m a i e) as [[d [[-> | ->] [Na [Ni He]]]]|[_ Z]].
  - rewrite !(gen_ai K m a i _ d Hd Na Ni He), (gen_ia K m a i _ d Hd Na Ni He), (gen_ai K m a i _ d Hd Na Ni He). rewrite sg_opp, sg_inv. reflexivity.
  - rewrite !(gen_ia K m a i _ d Hd Na Ni He), (gen_ai K m a i _ d Hd Na Ni He), (gen_ia K m a i _ d Hd Na Ni He). rewrite sg_inv. ring.
  - rewrite !Z. ring.
Qed.


(** [e] has exactly the orbitals [l] occupied among those of [a] and [i] *)
Definition only_ (l : list nat) (e : N) : bool := forallb (fun q => Bool.eqb (bt e q) (existsb (Nat.eqb q) l)) (a ++ i).
Lemma only_sets l d : (l = a \/ l = i) -> empty_on d (i ++ a) -> only_ l (sets d l) = true.
Proof.
  intros Hl He. unfold only_. apply forallb_forall. intros q Hq. rewrite bt_sets, (He q) by (apply in_or_app; apply in_app_or in Hq; tauto).
  rewrite orb_false_r. apply eqb_true_iff. clear. induction l as [|x l IH]; [reflexivity|]. cbn [existsb]. now rewrite IH, Nat.eqb_sym.
Qed.
Lemma only_inv l e : (l = a \/ l = i) -> only_ l e = true -> empty_on (clrs e (i ++ a)) (i ++ a) /\ e = sets (clrs e (i ++ a)) l.
Proof.
  intros Hl He. split.
  - intros q Hq. rewrite bt_clrs. rewrite (proj2 (existsb_eq (i ++ a) q) Hq). reflexivity.
  - apply bt_ext. intros q. rewrite bt_sets, bt_clrs. unfold only_ in He. rewrite forallb_forall in He.
    assert (XE : existsb (Nat.eqb q) l = existsb (fun x => (x =? q)%nat) l).
    { clear. induction l as [|x l IH]; [reflexivity|]. cbn [existsb]. now rewrite IH, Nat.eqb_sym. }
    destruct (existsb (fun x => (x =? q)%nat) (i ++ a)) eqn:E.
    + apply existsb_eq in E. specialize (He q). rewrite eqb_true_iff, XE in He. cbn. rewrite orb_false_r. apply He.
      apply in_or_app. apply in_app_or in E. tauto.
    + cbn. rewrite (proj2 (existsb_neq l q)); [reflexivity|]. intros C. apply (proj1 (existsb_neq (i ++ a) q) E). apply in_or_app. destruct Hl as [-> | ->]; tauto.
Qed.
Lemma gen_sq (v : vec) e : NoDup a -> NoDup i -> - G (G v) e = if (only_ a e || only_ i e)%bool then v e else s0.
Proof.
  intros Na Ni. destruct (gen_miss K m a i e) as [[d [[-> | ->] [_ [_ He]]]]|[M Z]].
  - rewrite only_sets by auto. cbn. rewrite !(gen_ai K m a i _ d Hd Na Ni He), (gen_ia K m a i _ d Hd Na Ni He). rewrite sg_opp, sg_inv. ring.
  - rewrite (only_sets i d) by auto. rewrite orb_true_r. rewrite !(gen_ia K m a i _ d Hd Na Ni He), (gen_ai K m a i _ d Hd Na Ni He). rewrite sg_inv. ring.
  - rewrite Z. destruct (only_ a e) eqn:Oa.
    + exfalso. destruct (only_inv a e) as [O1 O2]; auto. apply (M _ (or_introl O2)); assumption.
    + destruct (only_ i e) eqn:Oi; [|cbn; ring]. exfalso. destruct (only_inv i e) as [O1 O2]; auto. apply (M _ (or_intror O2)); assumption.
Qed.

Notation rot := (rot K m a i).
Lemma rot_ext (c s : K) (u v : vec) : veq m u v -> veq m (rot c s u) (rot c s v).
Proof. intros H e He. unfold FockSpec.rot. rewrite (H e He), (gen_ext u v H e He), (gen_ext _ _ (gen_ext u v H) e He). reflexivity. Qed.
Lemma gen_rot (c s : K) (v : vec) e : G (rot c s v) e = c * G v e + s * G (G v) e.
Proof.
  transitivity (G (fun d => s1 * (s1 * v d + s * G v d) + (s1 - c) * G (G v) d) e).
  { unfold FockSpec.rot. destruct (gen_miss K m a i e) as [[d [[-> | ->] [Na [Ni He]]]]|[_ Z]].
    - rewrite !(gen_ai K m a i _ d Hd Na Ni He). f_equal. ring.
    - rewrite !(gen_ia K m a i _ d Hd Na Ni He). f_equal. f_equal. ring.
    - rewrite !Z. reflexivity. }
  rewrite (gen_lin s1 (s1 - c) (fun d => s1 * v d + s * G v d) (G (G v))). rewrite (gen_lin s1 s v (G v)), gen_cube. ring.
Qed.
Lemma gen_gen_rot (c s : K) (v : vec) e : G (G (rot c s v)) e = c * G (G v) e - s * G v e.
Proof.
  transitivity (G (fun d => c * G v d + s * G (G v) d) e).
  { destruct (gen_miss K m a i e) as [[d [[-> | ->] [Na [Ni He]]]]|[_ Z]].
    - rewrite !(gen_ai K m a i _ d Hd Na Ni He). now rewrite gen_rot.
    - rewrite !(gen_ia K m a i _ d Hd Na Ni He). now rewrite gen_rot.
    - rewrite !Z. reflexivity. }
  rewrite (gen_lin c s (G v) (G (G v))), gen_cube. ring.
Qed.
Lemma rot_rot (c s c' s' : K) (v : vec) e :
  rot c' s' (rot c s v) e = rot (c * c' - s * s') (s * c' + c * s') v e.
Proof. unfold FockSpec.rot at 1. rewrite gen_rot, gen_gen_rot. unfold FockSpec.rot. ring. Qed.
Lemma rot_inv (c s : K) (v : vec) e : c * c + s * s = s1 -> rot c (- s) (rot c s v) e = v e.
Proof.
  intros H. rewrite rot_rot. unfold FockSpec.rot. 
  transitivity (v e + (s * c - c * s) * G v e + (s1 - (c * c + s * s)) * G (G v) e); [ring|]. rewrite H. ring.
Qed.
Lemma inner_add_r (u v w : vec) : inner m u (fun d => v d + w d) = inner m u v + inner m u w.
Proof. unfold FockSpec.inner. rewrite <- bsum_add. apply bsum_ext. intros d _. ring. Qed.
Lemma inner_mul_r (u v : vec) (x : K) : inner m u (fun d => x * v d) = x * inner m u v.
Proof. unfold FockSpec.inner. rewrite bsum_mul_l. apply bsum_ext. intros d _. ring. Qed.
Lemma inner_add_l (u v w : vec) : inner m (fun d => v d + w d) u = inner m v u + inner m w u.
Proof. unfold FockSpec.inner. rewrite <- bsum_add. apply bsum_ext. intros d _. rewrite sconj_add. ring. Qed.
Lemma inner_mul_l (u v : vec) (x : K) : inner m (fun d => x * v d) u = sconj x * inner m v u.
Proof. unfold FockSpec.inner. rewrite bsum_mul_l. apply bsum_ext. intros d _. rewrite sconj_mul. ring. Qed.
Lemma rot_adj (c s : K) (u v : vec) : sconj c = c -> sconj s = s ->
  inner m (rot c s u) v = inner m u (rot c (- s) v).
Proof.
  intros Hc Hs. unfold FockSpec.rot. rewrite !inner_add_l, !inner_add_r, !inner_mul_l, !inner_mul_r. rewrite !gen_adj.
  assert (Hm : forall x : K, sconj (- x) = - sconj x) by (intros x; exact (sg_conj K true x)).
  assert (E : sconj (s1 - c) = s1 - c).
  { replace (s1 - c) with (s1 + - c) by ring. rewrite sconj_add, Hm, Hc. f_equal.
    transitivity (sconj s1 * @s1 K); [ring|]. rewrite <- (sconj_inv K (sconj s1 * s1)), sconj_mul, sconj_inv.
    replace (s1 * sconj s1) with (@sconj K s1) by ring. apply sconj_inv. }
  rewrite E, Hs. ring.
Qed.
Lemma rot_iso (c s : K) (u v : vec) : sconj c = c -> sconj s = s -> c * c + s * s = s1 ->
  inner m (rot c s u) (rot c s v) = inner m u v.
Proof. intros Hc Hs H. rewrite rot_adj by assumption. apply inner_ext; [intros d _; reflexivity|]. intros d _. now apply rot_inv. Qed.
End Gen.
End Ops.
