(** Sums of reals; overlaps of orthonormal vectors. *)
From Coq Require Import List Bool Arith ZArith Reals Lia Lra Psatz.
From Verif Require Import Base UrootModel LinqModel.
Import ListNotations.
Local Open Scope R_scope.

Lemma rsum_ext n f g : (forall k, (k < n)%nat -> f k = g k) -> rsum n f = rsum n g.
Proof. induction n as [|n IH]; intros H; [reflexivity|]. cbn. rewrite IH by (intros; apply H; lia). now rewrite H by lia. Qed.
Lemma rsum_add n f g : rsum n (fun k => f k + g k) = rsum n f + rsum n g.
Proof. induction n as [|n IH]; cbn; [lra|rewrite IH; lra]. Qed.
Lemma rsum_sub n f g : rsum n (fun k => f k - g k) = rsum n f - rsum n g.
Proof. induction n as [|n IH]; cbn; [lra|rewrite IH; lra]. Qed.
Lemma rsum_mul_l n c f : c * rsum n f = rsum n (fun k => c * f k).
Proof. induction n as [|n IH]; cbn; [lra|rewrite <- IH; lra]. Qed.
Lemma rsum_mul_r n c f : rsum n f * c = rsum n (fun k => f k * c).
Proof. induction n as [|n IH]; cbn; [lra|rewrite <- IH; lra]. Qed.
Lemma rsum_0 n f : (forall k, (k < n)%nat -> f k = 0) -> rsum n f = 0.
Proof. induction n as [|n IH]; intros H; [reflexivity|]. cbn. rewrite IH by (intros; apply H; lia). rewrite H by lia. lra. Qed.
Lemma rsum_const n c : rsum n (fun _ => c) = INR n * c.
Proof. induction n as [|n IH]; [cbn; lra|]. cbn [rsum]. rewrite IH, S_INR. lra. Qed.
Lemma rsum_swap n m f : rsum n (fun a => rsum m (fun b => f a b)) = rsum m (fun b => rsum n (fun a => f a b)).
Proof.
  induction n as [|n IH]; cbn; [symmetry; now apply rsum_0|]. rewrite IH, <- rsum_add. reflexivity.
Qed.
Lemma rsum_le n f g : (forall k, (k < n)%nat -> f k <= g k) -> rsum n f <= rsum n g.
Proof. induction n as [|n IH]; intros H; [cbn; lra|]. cbn. pose proof (H n ltac:(lia)). pose proof (IH ltac:(intros; apply H; lia)). lra. Qed.
Lemma rsum_pos n f : (forall k, (k < n)%nat -> 0 <= f k) -> 0 <= rsum n f.
Proof. intros H. rewrite <- (rsum_0 n (fun _ => 0)) by reflexivity. now apply rsum_le. Qed.
Lemma rsum_delta n a f : (a < n)%nat -> rsum n (fun b => delta a b * f b) = f a.
Proof.
  unfold delta. induction n as [|n IH]; intros H; [lia|]. cbn. destruct (Nat.eqb_spec a n) as [->|D].
  - rewrite rsum_0; [lra|]. intros k Hk. destruct (Nat.eqb_spec n k); [lia|lra].
  - rewrite IH by lia. lra.
Qed.
Lemma delta_sym a b : delta a b = delta b a.
Proof. unfold delta. now rewrite Nat.eqb_sym. Qed.
Lemma rsum_delta_r n a f : (a < n)%nat -> rsum n (fun b => f b * delta b a) = f a.
Proof. intros H. rewrite <- (rsum_delta n a f H). apply rsum_ext. intros b _. rewrite (delta_sym b a). ring. Qed.

(** ** what orthonormal, orthogonal and the distance of two groups are *)
Definition orthonormal (g : group) : Prop := forall a b, (a < g_lroots g)%nat -> (b < g_lroots g)%nat -> rsum (g_size g) (fun k => g_vec g a k * g_vec g b k) = delta a b.
Definition orthogonal (n : nat) (w : rmat) : Prop := forall a b, (a < n)%nat -> (b < n)%nat -> rsum n (fun k => w k a * w k b) = delta a b /\ rsum n (fun k => w a k * w b k) = delta a b.
(** the squared length of what is left of the vectors of [y] after the rotated vectors of [x] are subtracted *)
Definition distance2 (x y : group) (w : rmat) : R :=
  rsum (g_lroots y) (fun b => rsum (g_size y) (fun k => (g_vec y b k - rsum (g_lroots x) (fun a => g_vec x a k * w a b)) ^ 2)).
(** what is asked of numpy.linalg.svd, for one matrix *)
Definition svd_at (svd : nat -> rmat -> rmat * (nat -> R) * rmat) (n : nat) (o : rmat) : Prop := let '(u, s, vh) := svd n o in
  orthogonal n u /\ orthogonal n vh /\ (forall k, (k < n)%nat -> 0 <= s k) /\ forall a b, (a < n)%nat -> (b < n)%nat -> o a b = rsum n (fun k => u a k * s k * vh k b).

Section Pair.
  Variables (x y : group).
  Let n := g_lroots x.
  Let N := g_size x.
  Hypothesis Hn : g_lroots y = n.
  Hypothesis HN : g_size y = N.
  Hypothesis Ox : orthonormal x.
  Hypothesis Oy : orthonormal y.
  Notation o := (g_ovlp x y).
  Lemma Ox' a b : (a < n)%nat -> (b < n)%nat -> rsum N (fun k => g_vec x a k * g_vec x b k) = delta a b.
  Proof. exact (Ox a b). Qed.
  Lemma Oy' a b : (a < n)%nat -> (b < n)%nat -> rsum N (fun k => g_vec y a k * g_vec y b k) = delta a b.
  Proof. rewrite <- Hn, <- HN. exact (Oy a b). Qed.
  (** any vector v *)
  Lemma residue (v : nat -> R) (w : nat -> R) : rsum N (fun k => (v k - rsum n (fun a => g_vec x a k * w a)) ^ 2) =
    rsum N (fun k => v k * v k) + rsum n (fun a => w a * w a) - 2 * rsum n (fun a => w a * rsum N (fun k => g_vec x a k * v k)).
  Proof.
    transitivity (rsum N (fun k => v k * v k) - 2 * rsum N (fun k => v k * rsum n (fun a => g_vec x a k * w a)) + rsum N (fun k => rsum n (fun a => g_vec x a k * w a) * rsum n (fun a => g_vec x a k * w a))).
    - rewrite (rsum_mul_l N 2), <- rsum_sub, <- rsum_add. apply rsum_ext. intros k _. ring.
    - assert (A : rsum N (fun k => v k * rsum n (fun a => g_vec x a k * w a)) = rsum n (fun a => w a * rsum N (fun k => g_vec x a k * v k))).
      { transitivity (rsum N (fun k => rsum n (fun a => w a * (g_vec x a k * v k)))); [apply rsum_ext; intros k _; rewrite rsum_mul_l; apply rsum_ext; intros; ring|]. rewrite rsum_swap. apply rsum_ext. intros a _. symmetry. apply rsum_mul_l. }
      assert (B : rsum N (fun k => rsum n (fun a => g_vec x a k * w a) * rsum n (fun a => g_vec x a k * w a)) = rsum n (fun a => w a * w a)).
      { transitivity (rsum n (fun a => rsum n (fun b => w a * w b * rsum N (fun k => g_vec x a k * g_vec x b k)))).
        - transitivity (rsum N (fun k => rsum n (fun a => rsum n (fun b => w a * w b * (g_vec x a k * g_vec x b k))))).
          + apply rsum_ext. intros k _. rewrite rsum_mul_r. apply rsum_ext. intros a _. rewrite rsum_mul_l. apply rsum_ext. intros b _. ring.
          + rewrite rsum_swap. apply rsum_ext. intros a _. rewrite rsum_swap. apply rsum_ext. intros b _. symmetry. apply rsum_mul_l.
        - apply rsum_ext. intros a Ha. transitivity (rsum n (fun b => delta a b * (w a * w b))); [|apply rsum_delta; exact Ha]. apply rsum_ext. intros b Hb. rewrite (Ox' a b Ha Hb). ring. }
      rewrite A, B. ring.
  Qed.
  Lemma dist_general w : distance2 x y w = INR n + rsum n (fun b => rsum n (fun a => w a b * w a b)) - 2 * rsum n (fun b => rsum n (fun a => w a b * o a b)).
  Proof.
    unfold distance2. rewrite Hn, HN. fold n. transitivity (rsum n (fun b => 1 + rsum n (fun a => w a b * w a b) - 2 * rsum n (fun a => w a b * o a b))).
    - apply rsum_ext. intros b Hb. etransitivity; [exact (residue (g_vec y b) (fun a => w a b))|]. rewrite (Oy' b b Hb Hb). unfold delta. rewrite Nat.eqb_refl. reflexivity.
    - rewrite rsum_sub, rsum_add, rsum_const, <- rsum_mul_l. ring.
  Qed.
  Lemma bessel v : rsum n (fun a => rsum N (fun k => g_vec x a k * v k) * rsum N (fun k => g_vec x a k * v k)) <= rsum N (fun k => v k * v k).
  Proof.
    pose proof (residue v (fun a => rsum N (fun k => g_vec x a k * v k))) as E. cbn beta in E.
    assert (P : 0 <= rsum N (fun k => (v k - rsum n (fun a => g_vec x a k * rsum N (fun k0 => g_vec x a k0 * v k0))) ^ 2)) by (apply rsum_pos; intros; apply pow2_ge_0). lra.
  Qed.
  (** the overlap matrix shortens *)
  Lemma contraction c : rsum n (fun a => rsum n (fun b => o a b * c b) * rsum n (fun b => o a b * c b)) <= rsum n (fun b => c b * c b).
  Proof.
    pose proof (bessel (fun k => rsum n (fun b => c b * g_vec y b k))) as B.
    assert (E1 : forall a, rsum N (fun k => g_vec x a k * rsum n (fun b => c b * g_vec y b k)) = rsum n (fun b => o a b * c b)).
    { intros a. transitivity (rsum N (fun k => rsum n (fun b => c b * (g_vec x a k * g_vec y b k)))); [apply rsum_ext; intros; rewrite rsum_mul_l; apply rsum_ext; intros; ring|]. rewrite rsum_swap. apply rsum_ext. intros b _. rewrite <- rsum_mul_l. unfold g_ovlp. fold N. ring. }
    assert (E2 : rsum N (fun k => rsum n (fun b => c b * g_vec y b k) * rsum n (fun b => c b * g_vec y b k)) = rsum n (fun b => c b * c b)).
    { transitivity (rsum n (fun a => rsum n (fun b => c a * c b * rsum N (fun k => g_vec y a k * g_vec y b k)))).
      - transitivity (rsum N (fun k => rsum n (fun a => rsum n (fun b => c a * c b * (g_vec y a k * g_vec y b k))))).
        + apply rsum_ext. intros k _. rewrite rsum_mul_r. apply rsum_ext. intros a _. rewrite rsum_mul_l. apply rsum_ext. intros b _. ring.
        + rewrite rsum_swap. apply rsum_ext. intros a _. rewrite rsum_swap. apply rsum_ext. intros b _. symmetry. apply rsum_mul_l.
      - apply rsum_ext. intros a Ha. transitivity (rsum n (fun b => delta a b * (c a * c b))); [|apply rsum_delta; exact Ha]. apply rsum_ext. intros b Hb. rewrite (Oy' a b) by assumption. ring. }
    cbn beta in B. rewrite E2 in B. eapply Rle_trans; [|exact B]. apply Req_le. apply rsum_ext. intros a _. now rewrite E1.
  Qed.
  Lemma orth_sum w : orthogonal n w -> rsum n (fun b => rsum n (fun a => w a b * w a b)) = INR n.
  Proof. intros H. transitivity (rsum n (fun _ => 1)); [|rewrite rsum_const; ring]. apply rsum_ext. intros b Hb. rewrite (proj1 (H b b Hb Hb)). unfold delta. now rewrite Nat.eqb_refl. Qed.
  Lemma delta_orth : orthogonal n delta.
  Proof.
    intros a b Ha Hb. split.
    - transitivity (rsum n (fun k => delta a k * delta k b)); [apply rsum_ext; intros k _; now rewrite (delta_sym a k)|]. now rewrite (rsum_delta n a (fun k => delta k b) Ha).
    - rewrite (rsum_delta n a (fun k => delta b k) Ha). apply delta_sym.
  Qed.
  (** the identity *)
  Lemma near_one_dist eps : near_one eps n o = true -> distance2 x y delta <= 2 * INR n * eps.
  Proof.
    intros H. rewrite dist_general, (orth_sum delta delta_orth).
    assert (E : rsum n (fun b => rsum n (fun a => delta a b * o a b)) = rsum n (fun b => o b b)).
    { apply rsum_ext. intros b Hb. transitivity (rsum n (fun a => delta b a * o a b)); [apply rsum_ext; intros; now rewrite (delta_sym b)|]. now rewrite (rsum_delta n b (fun a => o a b)). }
    rewrite E. assert (L : rsum n (fun _ => 1 - eps) <= rsum n (fun b => o b b)).
    { apply rsum_le. intros b Hb. unfold near_one, all_lt in H. rewrite forallb_forall in H. specialize (H b ltac:(apply in_seq; lia)). rewrite forallb_forall in H. specialize (H b ltac:(apply in_seq; lia)).
      unfold rltb in H. destruct (Rlt_dec _ _) as [L|]; [|discriminate]. unfold delta in L. rewrite Nat.eqb_refl in L. apply Rabs_def2 in L. lra. }
    rewrite rsum_const in L. lra.
  Qed.
  Lemma close_dist eps : close_entries eps x y = true -> distance2 x y delta <= INR n * INR N * eps ^ 2.
  Proof.
    intros H. unfold distance2. rewrite Hn, HN. fold n. apply (Rle_trans _ (rsum n (fun _ => rsum N (fun _ => eps ^ 2)))); [|rewrite !rsum_const; lra].
    apply rsum_le. intros b Hb. apply rsum_le. intros k Hk. rewrite (rsum_delta_r n b (fun a => g_vec x a k) Hb).
    unfold close_entries, all_lt in H. rewrite forallb_forall in H. specialize (H b ltac:(apply in_seq; fold n; lia)). rewrite forallb_forall in H. specialize (H k ltac:(apply in_seq; fold N; lia)).
    unfold rltb in H. destruct (Rlt_dec _ _) as [L|]; [|discriminate]. apply Rabs_def2 in L. nra.
  Qed.
  Lemma same_dist : same_entries x y = true -> distance2 x y delta = 0.
  Proof.
    intros H. unfold distance2. rewrite Hn, HN. fold n. apply rsum_0. intros b Hb. apply rsum_0. intros k Hk. rewrite (rsum_delta_r n b (fun a => g_vec x a k) Hb).
    unfold same_entries, all_lt in H. rewrite forallb_forall in H. specialize (H b ltac:(apply in_seq; fold n; lia)). rewrite forallb_forall in H. specialize (H k ltac:(apply in_seq; fold N; lia)).
    unfold reqb in H. destruct (Req_EM_T _ _) as [L|]; [|discriminate]. rewrite L. ring.
  Qed.
  Lemma dist_pos w : 0 <= distance2 x y w.
  Proof. unfold distance2. apply rsum_pos. intros. apply rsum_pos. intros. apply pow2_ge_0. Qed.
  (** the rotation from the singular value decomposition *)
  Lemma rotation_orth svd : svd_at svd n o -> orthogonal n (u_vh svd n o).
  Proof.
    intros H. unfold svd_at in H. unfold u_vh. destruct (svd n o) as [[u s] vh]. destruct H as (Hu & Hv & _ & _).
    intros a b Ha Hb. split.
    - transitivity (rsum n (fun i => rsum n (fun j => vh i a * vh j b * rsum n (fun k => u k i * u k j)))).
      + transitivity (rsum n (fun k => rsum n (fun i => rsum n (fun j => vh i a * vh j b * (u k i * u k j))))).
        * apply rsum_ext. intros k _. rewrite rsum_mul_r. apply rsum_ext. intros i _. rewrite rsum_mul_l. apply rsum_ext. intros j _. ring.
        * rewrite rsum_swap. apply rsum_ext. intros i _. rewrite rsum_swap. apply rsum_ext. intros j _. symmetry. apply rsum_mul_l.
      + rewrite <- (proj1 (Hv a b Ha Hb)). apply rsum_ext. intros i Hi. transitivity (rsum n (fun j => delta i j * (vh i a * vh j b))); [|now apply (rsum_delta n i (fun j => vh i a * vh j b))]. apply rsum_ext. intros j Hj. rewrite (proj1 (Hu i j Hi Hj)). ring.
    - transitivity (rsum n (fun i => rsum n (fun j => u a i * u b j * rsum n (fun k => vh i k * vh j k)))).
      + transitivity (rsum n (fun k => rsum n (fun i => rsum n (fun j => u a i * u b j * (vh i k * vh j k))))).
        * apply rsum_ext. intros k _. rewrite rsum_mul_r. apply rsum_ext. intros i _. rewrite rsum_mul_l. apply rsum_ext. intros j _. ring.
        * rewrite rsum_swap. apply rsum_ext. intros i _. rewrite rsum_swap. apply rsum_ext. intros j _. symmetry. apply rsum_mul_l.
      + rewrite <- (proj2 (Hu a b Ha Hb)). apply rsum_ext. intros i Hi. transitivity (rsum n (fun j => delta i j * (u a i * u b j))); [|now apply (rsum_delta n i (fun j => u a i * u b j))]. apply rsum_ext. intros j Hj. rewrite (proj2 (Hv i j Hi Hj)). ring.
  Qed.
  Lemma rotation_dist svd eps : (0 < n)%nat -> svd_at svd n o -> spans eps n o = true -> distance2 x y (u_vh svd n o) <= 2 * INR n * eps.
  Proof.
    intros Hp Hs H. rewrite dist_general, (orth_sum _ (rotation_orth svd Hs)). unfold svd_at in Hs. unfold u_vh. destruct (svd n o) as [[u s] vh] eqn:Es. destruct Hs as (Hu & Hv & Hs0 & Ho).
    assert (Hn0 : 0 < INR n) by (apply lt_0_INR; exact Hp).
    assert (T : INR n * (1 - eps) <= trace1 n o).
    { unfold spans in H. apply andb_true_iff in H as [H _]. unfold rltb in H. destruct (Rlt_dec _ _) as [L|]; [|discriminate]. apply Rabs_def2 in L as [_ L]. assert (G : trace1 n o = trace1 n o / INR n * INR n) by (field; lra). rewrite G. nra. }
    (* the trace is the sum of the squares of the singular values *)
    assert (Q : forall k, (k < n)%nat -> rsum n (fun a => rsum n (fun b => o a b * vh k b) * rsum n (fun b => o a b * vh k b)) = s k * s k).
    { intros k Hk. transitivity (rsum n (fun a => (u a k * s k) * (u a k * s k))).
      - apply rsum_ext. intros a Ha. assert (E : rsum n (fun b => o a b * vh k b) = u a k * s k); [|now rewrite E].
        transitivity (rsum n (fun i => u a i * s i * rsum n (fun b => vh i b * vh k b))).
        + transitivity (rsum n (fun b => rsum n (fun i => u a i * s i * (vh i b * vh k b)))).
          * apply rsum_ext. intros b Hb. rewrite (Ho a b Ha Hb), rsum_mul_r. apply rsum_ext. intros; ring.
          * rewrite rsum_swap. apply rsum_ext. intros i _. symmetry. apply rsum_mul_l.
        + rewrite <- (rsum_delta_r n k (fun i => u a i * s i) Hk). apply rsum_ext. intros i Hi. rewrite (proj2 (Hv i k Hi Hk)). ring.
      - transitivity (rsum n (fun a => (s k * s k) * (u a k * u a k))); [apply rsum_ext; intros; ring|]. rewrite <- rsum_mul_l, (proj1 (Hu k k Hk Hk)). unfold delta. rewrite Nat.eqb_refl. ring. }
    assert (S1 : forall k, (k < n)%nat -> s k * s k <= s k).
    { intros k Hk. assert (s k * s k <= 1).
      { rewrite <- (Q k Hk). eapply Rle_trans; [apply contraction|]. rewrite (proj2 (Hv k k Hk Hk)). unfold delta. rewrite Nat.eqb_refl. lra. }
      pose proof (Hs0 k Hk). nra. }
    assert (Tr : trace1 n o = rsum n (fun k => s k * s k)).
    { transitivity (rsum n (fun k => rsum n (fun a => rsum n (fun b => o a b * vh k b) * rsum n (fun b => o a b * vh k b)))); [|apply rsum_ext; intros k Hk; now apply Q].
      unfold trace1. symmetry. rewrite rsum_swap. apply rsum_ext. intros a Ha.
      transitivity (rsum n (fun b => rsum n (fun c => o a b * o a c * rsum n (fun k => vh k b * vh k c)))).
      - transitivity (rsum n (fun k => rsum n (fun b => rsum n (fun c => o a b * o a c * (vh k b * vh k c))))).
        + apply rsum_ext. intros k _. rewrite rsum_mul_r. apply rsum_ext. intros b _. rewrite rsum_mul_l. apply rsum_ext. intros c _. ring.
        + rewrite rsum_swap. apply rsum_ext. intros b _. rewrite rsum_swap. apply rsum_ext. intros c _. symmetry. apply rsum_mul_l.
      - apply rsum_ext. intros b Hb. transitivity (rsum n (fun c => delta b c * (o a b * o a c))); [|now apply (rsum_delta n b (fun c => o a b * o a c))]. apply rsum_ext. intros c Hc. rewrite (proj1 (Hv b c Hb Hc)). ring. }
    (* the sum of the products is the sum of the singular values *)
    assert (Sm : rsum n (fun b => rsum n (fun a => rsum n (fun k => u a k * vh k b) * o a b)) = rsum n s).
    { transitivity (rsum n (fun k => rsum n (fun a => u a k * (u a k * s k)))).
      - transitivity (rsum n (fun k => rsum n (fun a => u a k * rsum n (fun b => o a b * vh k b)))).
        + transitivity (rsum n (fun b => rsum n (fun a => rsum n (fun k => u a k * (o a b * vh k b))))).
          * apply rsum_ext. intros b _. apply rsum_ext. intros a _. rewrite rsum_mul_r. apply rsum_ext. intros; ring.
          * transitivity (rsum n (fun b => rsum n (fun k => rsum n (fun a => u a k * (o a b * vh k b))))); [apply rsum_ext; intros b _; apply rsum_swap|]. rewrite rsum_swap. apply rsum_ext. intros k _. rewrite rsum_swap. apply rsum_ext. intros a _. symmetry. apply rsum_mul_l.
        + apply rsum_ext. intros k Hk. apply rsum_ext. intros a Ha. f_equal. transitivity (rsum n (fun i => u a i * s i * rsum n (fun b => vh i b * vh k b))).
          * transitivity (rsum n (fun b => rsum n (fun i => u a i * s i * (vh i b * vh k b)))).
            -- apply rsum_ext. intros b Hb. rewrite (Ho a b Ha Hb), rsum_mul_r. apply rsum_ext. intros; ring.
            -- rewrite rsum_swap. apply rsum_ext. intros i _. symmetry. apply rsum_mul_l.
          * rewrite <- (rsum_delta_r n k (fun i => u a i * s i) Hk). apply rsum_ext. intros i Hi. rewrite (proj2 (Hv i k Hi Hk)). ring.
      - apply rsum_ext. intros k Hk. transitivity (rsum n (fun a => s k * (u a k * u a k))); [apply rsum_ext; intros; ring|]. rewrite <- rsum_mul_l, (proj1 (Hu k k Hk Hk)). unfold delta. rewrite Nat.eqb_refl. ring. }
    rewrite Sm. assert (L : rsum n (fun k => s k * s k) <= rsum n s) by (apply rsum_le; exact S1). rewrite <- Tr in L. lra.
  Qed.
  (** groups that span the same space are recognised *)
  Lemma exact_spans w eps : (0 < n)%nat -> 0 < eps -> orthogonal n w -> (forall b k, (b < n)%nat -> (k < N)%nat -> g_vec y b k = rsum n (fun a => g_vec x a k * w a b)) -> spans eps n o = true.
  Proof.
    intros Hp He Hw Hy. assert (E : forall a b, (a < n)%nat -> (b < n)%nat -> o a b = w a b).
    { intros a b Ha Hb. unfold g_ovlp. fold N. transitivity (rsum n (fun c => rsum N (fun k => g_vec x a k * g_vec x c k) * w c b)).
      - transitivity (rsum N (fun k => rsum n (fun c => g_vec x a k * g_vec x c k * w c b))); [apply rsum_ext; intros k Hk; rewrite (Hy b k Hb Hk), rsum_mul_l; apply rsum_ext; intros; ring|]. rewrite rsum_swap. apply rsum_ext. intros c _. symmetry. apply rsum_mul_r.
      - rewrite <- (rsum_delta n a (fun c => w c b) Ha). apply rsum_ext. intros c Hc. now rewrite (Ox' a c Ha Hc). }
    assert (T2 : trace2 n o = INR n).
    { rewrite <- (orth_sum w Hw). unfold trace2. apply rsum_ext. intros b Hb. apply rsum_ext. intros a Ha. now rewrite E. }
    assert (T1 : trace1 n o = INR n) by (unfold trace1; rewrite rsum_swap; exact T2).
    assert (Hn0 : 0 < INR n) by (apply lt_0_INR; exact Hp).
    unfold spans, rltb. rewrite T1, T2. replace (INR n / INR n - 1) with 0 by (field; lra). rewrite Rabs_R0. destruct (Rlt_dec 0 eps); [reflexivity|contradiction].
  Qed.
End Pair.
