(** Facts about the step along LASSIS variables. *)
From Coq Require Import List Arith Bool Lia Reals Lra.
From Verif Require Import Base Star LsisModel LsisProofs LsisUpdModel.
Import ListNotations.
Local Open Scope R_scope.

Ltac rr := match goal with |- @eq _ ?a ?b => change (@eq R a b) end; cbv [Rs s0 s1 sadd smul ssub sopp sconj car]; ring.
Notation rsum n f := (bsum (K := Rs) (seq 0 n) f).
Definition norm2 (m : rmat) (r : nat) : R := rsum (nc m) (fun j => el m r j * el m r j).

Lemma rsum_nonneg {A} (l : list A) (f : A -> R) : (forall x, In x l -> 0 <= f x) -> 0 <= bsum (K := Rs) l f.
Proof.
  induction l as [|x l IH]; intros H; [apply Rle_refl|].
  change (0 <= f x + bsum (K := Rs) l f). assert (0 <= f x) by (apply H; now left).
  assert (0 <= bsum (K := Rs) l f) by (apply IH; intros; apply H; now right). lra.
Qed.
Lemma norm2_nonneg m r : 0 <= norm2 m r.
Proof. apply rsum_nonneg. intros j _. apply Rle_0_sqr. Qed.
Lemma phi_sq m r : phi m r * phi m r = norm2 m r.
Proof. unfold phi. apply sqrt_sqrt. apply norm2_nonneg. Qed.
Lemma phi_nonneg m r : 0 <= phi m r.
Proof. apply sqrt_pos. Qed.
Lemma rsum_comb n (a b : R) (f g : nat -> R) : rsum n (fun j => (a * f j + b * g j) * (a * f j + b * g j))
  = a * a * rsum n (fun j => f j * f j) + 2 * a * b * rsum n (fun j => g j * f j) + b * b * rsum n (fun j => g j * g j).
Proof.
  induction (seq 0 n) as [|x l IH]; [cbn [bsum]; change (0 = a * a * 0 + 2 * a * b * 0 + b * b * 0); ring|].
  cbn [bsum]. rewrite IH. rr.
Qed.
Lemma sinp_sq p : thr < p -> sinp p * sinp p * (p * p) = sin p * sin p.
Proof.
  intros H. assert (T : 0 < thr) by (unfold thr; apply Rinv_0_lt_compat; apply pow_lt; lra).
  unfold sinp. destruct (Rlt_dec thr (Rabs p)) as [L|L].
  - field. lra.
  - rewrite Rabs_pos_eq in L by lra. lra.
Qed.
Lemma sinp_small p : 0 <= p -> p <= thr -> sinp p = 1.
Proof.
  intros H1 H2. unfold sinp. destruct (Rlt_dec thr (Rabs p)) as [L|L]; [|reflexivity].
  rewrite Rabs_pos_eq in L by lra. lra.
Qed.
(** one row: cos^2 + sinp^2 p^2 *)
Lemma unit_close p : 0 <= p -> let n := cos p * cos p + sinp p * sinp p * (p * p) in
  1 <= n <= 1 + thr * thr /\ (p = 0 \/ thr < p -> n = 1).
Proof.
  intros P n. assert (T : 0 < thr) by (unfold thr; apply Rinv_0_lt_compat; apply pow_lt; lra).
  pose proof (sin2_cos2 p) as SC. unfold Rsqr in SC.
  destruct (Rlt_dec thr p) as [L|L].
  - assert (n = 1) as -> by (unfold n; rewrite sinp_sq by exact L; lra). split; [nra | reflexivity].
  - unfold n. rewrite sinp_small by lra.
    assert (S : sin p * sin p <= p * p).
    { destruct (Req_dec p 0) as [->|N]; [rewrite sin_0; lra|].
      assert (Hp : 0 < p) by lra. pose proof (sin_lt_x p Hp).
      assert (Hpi : p < PI). { assert (thr <= 1). { unfold thr. rewrite <- Rinv_1. apply Rinv_le_contravar; [lra|]. simpl. lra. } pose proof PI2_1. lra. }
      assert (0 <= sin p) by (apply sin_ge_0; lra). nra. }
    split.
    + split; [lra|]. assert (0 <= sin p * sin p) by apply Rle_0_sqr. assert (p * p <= thr * thr) by nra. lra.
    + intros [->|C]; [rewrite sin_0, cos_0 in *; lra | lra].
Qed.

Lemma update_norm ci0 dci r : (r < nr ci0)%nat -> nr dci = nr ci0 -> nc dci = nc ci0 -> orthonormal Rs ci0 ->
  norm2 (update_rows ci0 dci) r =
  cos (phi (remove Rs ci0 dci) r) * cos (phi (remove Rs ci0 dci) r) + sinp (phi (remove Rs ci0 dci) r) * sinp (phi (remove Rs ci0 dci) r) *
    (phi (remove Rs ci0 dci) r * phi (remove Rs ci0 dci) r).
Proof.
  intros R Hr Hc Ho. set (d := remove Rs ci0 dci). unfold norm2, update_rows. fold d. cbn [nc el].
  transitivity (cos (phi d r) * cos (phi d r) * norm2 ci0 r + 2 * cos (phi d r) * sinp (phi d r) * ip Rs d r ci0 r + sinp (phi d r) * sinp (phi d r) * norm2 d r).
  - unfold norm2, ip. assert (E : nc d = nc ci0) by exact Hc. rewrite E. apply rsum_comb.
  - assert (Z : ip Rs d r ci0 r = 0) by (apply (remove_perp Rs ci0 dci (eq_sym Hc) Ho r r); cbn [remove nr]; lia).
    assert (N : norm2 ci0 r = 1). { pose proof (Ho r r R R) as N. rewrite Nat.eqb_refl in N. exact N. }
    rewrite Z, N, (phi_sq d r). ring.
Qed.

(** ** first order *)
Definition scale (t : R) (m : rmat) : rmat := @mkMat Rs (nr m) (nc m) (fun r j => t * el m r j).
Lemma rsum_scale {A} (l : list A) t (f : A -> R) : bsum (K := Rs) l (fun x => t * f x) = t * bsum (K := Rs) l f.
Proof. symmetry. exact (bsum_mul_l Rs l t f). Qed.
Lemma remove_scale ci0 d t r j : el (remove Rs ci0 (scale t d)) r j = t * el (remove Rs ci0 d) r j.
Proof.
  cbn [remove scale el nc nr].
  rewrite (bsum_ext Rs _ _ (fun k => t * (bsum (K := Rs) (seq 0 (nc d)) (fun l => el d r l * el ci0 k l) * el ci0 k j))).
  2:{ intros k _. rewrite (bsum_ext Rs _ _ (fun l => t * (el d r l * el ci0 k l))) by (intros l _; rr).
      rewrite rsum_scale. rr. }
  rewrite rsum_scale. rr.
Qed.
Lemma phi_scale ci0 d t r : phi (remove Rs ci0 (scale t d)) r = Rabs t * phi (remove Rs ci0 d) r.
Proof.
  unfold phi. cbn [remove nc]. change (nc (scale t d)) with (nc d).
  rewrite (bsum_ext Rs _ _ (fun j => (t * t) * (el (remove Rs ci0 d) r j * el (remove Rs ci0 d) r j))).
  2:{ intros j _. rewrite remove_scale. rr. }
  rewrite rsum_scale, sqrt_mult_alt by apply Rle_0_sqr. f_equal.
  exact (sqrt_Rsqr_abs t).
Qed.
Lemma update_first_order ci0 d r j :
  derivable_pt_lim (fun t => el (update_rows ci0 (scale t d)) r j) 0 (el (remove Rs ci0 d) r j).
Proof.
  set (p := phi (remove Rs ci0 d) r). set (c := el ci0 r j). set (w := el (remove Rs ci0 d) r j).
  assert (T : 0 < thr) by (unfold thr; apply Rinv_0_lt_compat; apply pow_lt; lra).
  assert (P : 0 <= p) by apply phi_nonneg.
  assert (E : forall t, Rabs t < thr / (p + 1) -> el (update_rows ci0 (scale t d)) r j = cos (t * p) * c + t * w).
  { intros t Ht. unfold update_rows. cbn [el]. rewrite phi_scale, remove_scale. fold p c w.
    assert (S : Rabs t * p <= thr).
    { apply Rle_trans with (thr / (p + 1) * p).
      - apply Rmult_le_compat_r; lra.
      - apply Rmult_le_reg_r with (p + 1); [lra|]. replace (thr / (p + 1) * p * (p + 1)) with (thr * p) by (field; lra). nra. }
    rewrite sinp_small by (first [exact S | apply Rmult_le_pos; [apply Rabs_pos | exact P]]).
    assert (C : cos (Rabs t * p) = cos (t * p)).
    { unfold Rabs. destruct (Rcase_abs t); [|reflexivity]. replace (- t * p) with (- (t * p)) by ring. apply cos_neg. }
    rewrite C. rr. }
  assert (D : derivable_pt_lim (fun t => cos (t * p) * c + t * w) 0 w).
  { assert (D0 : derivable_pt_lim (fun t => t * p) 0 p).
    { pose proof (derivable_pt_lim_mult id (fun _ => p) 0 _ _ (derivable_pt_lim_id 0) (derivable_pt_lim_const p 0)) as D0.
      cbv beta in D0. replace (1 * p + id 0 * 0) with p in D0 by (unfold id; ring). exact D0. }
    assert (D1 : derivable_pt_lim (fun t => cos (t * p)) 0 (- sin (0 * p) * p)).
    { exact (derivable_pt_lim_comp (fun t => t * p) cos 0 p _ D0 (derivable_pt_lim_cos (0 * p))). }
    assert (D2 : derivable_pt_lim (fun t => cos (t * p) * c) 0 (- sin (0 * p) * p * c + cos (0 * p) * 0)).
    { exact (derivable_pt_lim_mult (fun t => cos (t * p)) (fun _ => c) 0 _ _ D1 (derivable_pt_lim_const c 0)). }
    assert (D3 : derivable_pt_lim (fun t => t * w) 0 (1 * w + id 0 * 0)).
    { exact (derivable_pt_lim_mult id (fun _ => w) 0 _ _ (derivable_pt_lim_id 0) (derivable_pt_lim_const w 0)). }
    pose proof (derivable_pt_lim_plus _ _ 0 _ _ D2 D3) as D4.
    cbv beta in D4. replace (- sin (0 * p) * p * c + cos (0 * p) * 0 + (1 * w + id 0 * 0)) with w in D4; [exact D4|].
    rewrite Rmult_0_l, sin_0. unfold id.
    assert (G : forall c w : R, w = - 0 * p * c + cos 0 * 0 + (1 * w + 0 * 0)) by (intros; ring). exact (G c w). }
  intros eps He. destruct (D eps He) as [dl Hd].
  assert (Q : 0 < Rmin dl (thr / (p + 1))).
  { apply Rmin_pos; [apply cond_pos|]. apply Rmult_lt_0_compat; [exact T|]. apply Rinv_0_lt_compat. lra. }
  exists (mkposreal _ Q). intros h H0 Hh. cbn [pos] in Hh.
  rewrite E, E.
  - apply Hd; [exact H0|]. eapply Rlt_le_trans; [exact Hh | apply Rmin_l].
  - rewrite Rabs_R0. apply Rmult_lt_0_compat; [exact T|]. apply Rinv_0_lt_compat. lra.
  - rewrite Rplus_0_l. eapply Rlt_le_trans; [exact Hh | apply Rmin_r].
Qed.
Lemma update_zero (ci0 d : rmat) : (forall r j, el d r j = 0) -> forall r j, el (update_rows ci0 d) r j = el ci0 r j.
Proof.
  intros Z r j.
  assert (E : forall r j, el (remove Rs ci0 d) r j = 0).
  { intros r0 j0. cbn [remove el]. rewrite Z. rewrite (bsum_0 Rs); [rr|].
    intros k _. rewrite (bsum_0 Rs); [rr|]. intros l _. rewrite Z. rr. }
  unfold update_rows. cbn [el].
  assert (P : phi (remove Rs ci0 d) r = 0).
  { unfold phi. rewrite (bsum_0 Rs); [apply sqrt_0|]. intros l _. rewrite E. rr. }
  rewrite P, E, cos_0. rr.
Qed.
