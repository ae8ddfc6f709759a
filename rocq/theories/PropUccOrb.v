(** Property C63: a product of spin-adapted singles is a rotation of the orbitals; the orbitals returned by
    rotate_mo are those of the wave function for one rotation, but not in general. *)
From Coq Require Import List NArith ZArith Arith Bool Lia Reals Lra Sorting.Permutation.
From Verif Require Import Base Star FockSpec FockFacts FsuccModel FsuccFacts FsuccProofs FockOps FsuccHop PropFsucc
  UggModel UggProofs UccModel UccProofs UccReal UccInit UccUniq PropUcc SpinRot UccSymModel UccSymFacts UccSymProofs UccSymOrder UccSymSpin PropUccSym PropUccSpin UccOrb UccOrbModel.
Import ListNotations.
Local Open Scope R_scope.

Notation sum n f := (bsum (K := Rstar) (seq 0 n) f).
(** the rotations of pairs of orbitals by the amplitudes, one after the other *)
Definition orbitals (norb : nat) (x : list R) : rfun := orbmat Rstar norb R cos sin (combine (tril_strict norb) x).
(** the matrix exponential: F' = A F, F(0) = 1, F(1) = E *)
Definition is_expm (n : nat) (A E : rfun) : Prop := exists F : R -> rfun,
  (forall p q, (p < n)%nat -> (q < n)%nat -> F 0 p q = (if (p =? q)%nat then 1 else 0)) /\
  (forall t p q, (p < n)%nat -> (q < n)%nat -> derivable_pt_lim (fun s => F s p q) t (sum n (fun k => A p k * F t k q))) /\
  forall p q, (p < n)%nat -> (q < n)%nat -> F 1 p q = E p q.

(** ** the operator as a rotation of orbitals *)
Lemma flat_gens norb (idx : list (nat * nat)) (x : list R) : length x = length idx ->
  combine (flat_map (gens_of norb) (map single idx)) (flat_map (fun y => repeat (snd y) (length (gens_of norb (fst y)))) (combine (map single idx) x)) = pairs norb R (combine idx x).
Proof.
  revert x. induction idx as [|[p q] idx IH]; intros [|t x] L; try discriminate; [reflexivity|]. cbn [map combine flat_map].
  unfold gens_of at 1 3. cbn [single fst snd map length repeat app combine pairs]. f_equal. f_equal. apply IH. cbn in L; lia.
Qed.
Lemma flat_rows norb (idx : list (nat * nat)) (x : list R) : length x = length idx ->
  flat_map (fun y => repeat (snd y) (length (rows norb true 0 (fst y)))) (combine (map single idx) x) = x.
Proof. revert x. induction idx as [|[p q] idx IH]; intros [|t x] L; try discriminate; [reflexivity|]. cbn [map combine flat_map fst snd single rows length repeat app]. f_equal. apply IH. cbn in L; lia. Qed.
Lemma map_fst_combine {A B} (l : list A) (y : list B) : length y = length l -> map fst (combine l y) = l.
Proof. revert y. induction l as [|x l IH]; intros [|t y] L; try discriminate; [reflexivity|]. cbn. f_equal. apply IH. cbn in L; lia. Qed.
Lemma uccs_facs norb x : length x = length (tril_strict norb) -> exists u, uccs_uop norb x = Ok u /\ u_norb R u = (2 * norb)%nat /\
  Forall (sane (2 * norb)) (u_gens R u) /\ length (u_amps R u) = length (u_gens R u) /\ facs R u = pairs norb R (combine (tril_strict norb) x).
Proof.
  intros L. unfold uccs_uop, get_uccs_op. cbv zeta. set (idx := tril_strict norb) in *.
  assert (Ec : combine (map (fun x : nat * nat => [fst x]) idx) (map (fun x => [snd x]) idx) = map single idx) by apply combine_map2.
  assert (E : init1 R 0 norb true (map (fun x : nat * nat => [fst x]) idx) (map (fun x => [snd x]) idx) =
    Ok (mkU R (2 * norb) (flat_map (gens_of norb) (map single idx)) (repeat 0 (length (flat_map (gens_of norb) (map single idx)))), tab norb true 0 (map single idx))).
  { rewrite init1_ok; rewrite Ec; [reflexivity| |].
    - apply Forall_forall. intros g I. apply in_map_iff in I. destruct I as (y & <- & I). now apply single_good.
    - unfold idx. rewrite <- (filter_id (tril_strict norb)). apply singles_unalike. }
  rewrite E. cbn [bind fst snd]. eexists. split; [reflexivity|].
  destruct (set_sane _ _ _ _ _ _ (set_uniq R (tab norb true 0 (map single idx)) x (repeat 0 (length (flat_map (gens_of norb) (map single idx))))) E) as [H1 H2].
  split; [exact H1|]. split; [exact H2|]. cbn [u_amps]. split; [cbn [set_amps u_amps u_gens]; rewrite uniq_len; apply repeat_length|].
  unfold facs. cbn [set_amps u_gens u_amps]. rewrite <- flat_gens by exact L. f_equal.
  pose proof (set_uniq_tab R norb true (combine (map single idx) x) 0 (repeat 0 (length (flat_map (gens_of norb) (map single idx))))) as Q.
  rewrite map_fst_combine in Q by (rewrite map_length; exact L). rewrite flat_rows in Q by exact L. rewrite Q by (rewrite repeat_length; lia).
  cbn [firstn app Nat.add]. rewrite skipn_all2 by (rewrite repeat_length; lia). now rewrite app_nil_r.
Qed.
Lemma tril_fits norb (x : list R) : Forall (fits norb R) (combine (tril_strict norb) x).
Proof.
  apply Forall_forall. intros [[p q] t] I. apply in_combine_l in I. apply tril_strict_in in I. unfold fits. cbn [fst snd]. lia.
Qed.

Section C63.
Variable is0 : R -> bool.
Hypothesis is0_ok : forall x, is0 x = true -> x = 0.
Variable sched : list N -> list N.
Hypothesis sched_ok : forall l, Permutation (sched l) l.
Notation call := (call Rstar is0 sched R my_amp cos sin).
Notation veq := (veq Rstar).
Notation fld norb k p := (if k then cre Rstar (2 * norb) p else ann Rstar (2 * norb) p).

(** U x_q = sum_p M_pq x_p U for the creator and the annihilator x_q of either spin, with M orthogonal *)
Theorem C63_orbitals norb x : (2 * norb < 31)%nat -> length x = length (tril_strict norb) -> exists u, uccs_uop norb x = Ok u /\
  (forall (k : bool) q o psi, (q < norb)%nat -> o = 0%nat \/ o = norb -> exists r r', call u true false psi = Ok r /\ call u true false (fld norb k (q + o)%nat psi) = Ok r' /\
    veq (2 * norb) r' (fun d => sum norb (fun p => orbitals norb x p q * fld norb k (p + o)%nat r d))) /\
  forall q q', (q < norb)%nat -> (q' < norb)%nat -> sum norb (fun p => orbitals norb x p q * orbitals norb x p q') = (if (q =? q')%nat then 1 else 0).
Proof.
  intros Hm L. destruct (uccs_facs norb x L) as (u & E & Un & Us & Ul & Uf). exists u. split; [exact E|]. split.
  - intros k q o psi Hq So.
    destruct (call_ok Rstar is0 is0_ok sched sched_ok R my_amp cos sin my_cos my_sin (2 * norb) Hm u Un Us Ul false psi psi (veq_refl _ _ _)) as [r [E1 V]].
    destruct (call_ok Rstar is0 is0_ok sched sched_ok R my_amp cos sin my_cos my_sin (2 * norb) Hm u Un Us Ul false (fld norb k (q + o)%nat psi) _ (veq_refl _ _ _)) as [r' [E' V']].
    exists r, r'. split; [exact E1|]. split; [exact E'|]. cbv beta iota in V, V'. rewrite Uf in V, V'.
    intros d Hd. rewrite (V' d Hd). pose proof (prod_fld Rstar norb R cos sin pythR (combine (tril_strict norb) x) (tril_fits norb x) k q o psi d So Hq) as P.
    destruct k; cbn [SpinRot.fld] in P; rewrite P; apply bsum_ext; intros p I; apply in_seq in I; unfold orbitals; apply (f_equal2 Rmult); try reflexivity.
    + apply (exop_ext Rstar (2 * norb) [(p + o)%nat] []); [constructor|now apply veq_sym|exact Hd].
    + apply (exop_ext Rstar (2 * norb) [] [(p + o)%nat]); [repeat constructor; destruct So; lia|now apply veq_sym|exact Hd].
  - intros q q' Hq Hq'. exact (orbmat_orth Rstar norb R cos sin pythR _ (tril_fits norb x) q q' Hq Hq').
Qed.
(** a determinant becomes the determinant of the rotated orbitals *)
Theorem C63_determinant norb x occ : (2 * norb < 31)%nat -> length x = length (tril_strict norb) -> Forall (fun y => (fst y < norb)%nat /\ (snd y = 0%nat \/ snd y = norb)) occ ->
  exists u r, uccs_uop norb x = Ok u /\ call u true false (slater Rstar norb occ) = Ok r /\ veq (2 * norb) r (slater_in Rstar norb (orbitals norb x) occ).
Proof.
  intros Hm L Ho. destruct (uccs_facs norb x L) as (u & E & Un & Us & Ul & Uf). 
  destruct (call_ok Rstar is0 is0_ok sched sched_ok R my_amp cos sin my_cos my_sin (2 * norb) Hm u Un Us Ul false (slater Rstar norb occ) _ (veq_refl _ _ _)) as [r [E1 V]].
  exists u, r. split; [exact E|]. split; [exact E1|]. cbv beta iota in V. rewrite Uf in V. intros d Hd. rewrite (V d Hd).
  exact (prod_slater Rstar norb R cos sin pythR _ occ (tril_fits norb x) Ho d).
Qed.
End C63.

(** ** the matrix exponential *)
Lemma sum_deriv n (f : nat -> R -> R) (g : nat -> R) t : (forall k, (k < n)%nat -> derivable_pt_lim (f k) t (g k)) ->
  derivable_pt_lim (fun s => sum n (fun k => f k s)) t (sum n g).
Proof. intros H. apply deriv_sum. intros k I. apply in_seq in I. apply H. lia. Qed.
Definition skew (n : nat) (A : rfun) : Prop := forall p q, (p < n)%nat -> (q < n)%nat -> A p q = - A q p.
Lemma sum_ext n (f g : nat -> R) : (forall k, (k < n)%nat -> f k = g k) -> sum n f = sum n g.
Proof. intros H. apply (bsum_ext Rstar). intros k I. apply in_seq in I. apply H. lia. Qed.
Lemma sum_l n (c : R) (f : nat -> R) : c * sum n f = sum n (fun k => c * f k).
Proof. exact (bsum_mul_l Rstar (seq 0 n) c f). Qed.
Lemma sum_plus n (f g : nat -> R) : sum n (fun k => f k + g k) = sum n f + sum n g.
Proof. exact (bsum_add Rstar (seq 0 n) f g). Qed.
Lemma sum_swap n (f : nat -> nat -> R) : sum n (fun p => sum n (fun q => f p q)) = sum n (fun q => sum n (fun p => f p q)).
Proof. exact (bsum_swap Rstar (seq 0 n) (seq 0 n) f). Qed.
Lemma skew_quad n A (v : nat -> R) : skew n A -> sum n (fun p => v p * sum n (fun k => A p k * v k)) = 0.
Proof.
  intros S. assert (E0 : sum n (fun p => v p * sum n (fun k => A p k * v k)) = sum n (fun p => sum n (fun k => v p * (A p k * v k)))) by (apply sum_ext; intros p _; apply sum_l).
  assert (E : sum n (fun p => sum n (fun k => v p * (A p k * v k))) = -1 * sum n (fun p => sum n (fun k => v p * (A p k * v k)))).
  { rewrite sum_swap at 1. rewrite sum_l. apply sum_ext. intros k Hk. rewrite sum_l. apply sum_ext. intros p Hp. rewrite (S p k) by assumption. ring. }
  rewrite E0. revert E. generalize (sum n (fun p => sum n (fun k => v p * (A p k * v k)))). intros y. change (car Rstar) with R in y. intros E. lra.
Qed.
Lemma sum_nonneg (l : list nat) (f : nat -> R) : (forall k, 0 <= f k) -> 0 <= bsum (K := Rstar) l f.
Proof. intros H. induction l as [|x l IH]; [apply Rle_refl|]. change (0 <= f x + bsum (K := Rstar) l f). specialize (H x). lra. Qed.
Lemma sum_sq0 (l : list nat) (f : nat -> R) : bsum (K := Rstar) l (fun k => f k * f k) = 0 -> forall k, In k l -> f k = 0.
Proof.
  induction l as [|x l IH]; intros H k I; [destruct I|]. change (f x * f x + bsum (K := Rstar) l (fun k => f k * f k) = 0) in H.
  assert (P1 : 0 <= f x * f x) by nra. assert (P2 : 0 <= bsum (K := Rstar) l (fun k => f k * f k)) by (apply sum_nonneg; intros; nra).
  destruct I as [->|I]; [nra|]. apply IH; [lra|exact I].
Qed.
Lemma const_of_deriv (f : R -> R) : (forall t, derivable_pt_lim f t 0) -> forall s t, f s = f t.
Proof.
  intros H s t. assert (pr : derivable f) by (intros u; exists 0; apply H).
  assert (Z : forall u, derive_pt f u (pr u) = 0) by (intros u; apply (derive_pt_eq_0 f u 0 (pr u)); apply H). exact (null_derivative_1 f pr Z s t).
Qed.
Lemma expm_unique n A E E' : skew n A -> is_expm n A E -> is_expm n A E' -> forall p q, (p < n)%nat -> (q < n)%nat -> E p q = E' p q.
Proof.
  intros S (F & F0 & F' & F1) (G & G0 & G' & G1) p q Hp Hq. rewrite <- F1, <- G1 by assumption.
  set (D := fun s k => F s k q - G s k q). pose (f := fun s => sum n (fun k => D s k * D s k)).
  assert (Dd : forall t k, (k < n)%nat -> derivable_pt_lim (fun s => D s k) t (sum n (fun j => A k j * D t j))).
  { intros t k Hk. eapply deriv_val; [exact (derivable_pt_lim_minus _ _ t _ _ (F' t k q Hk Hq) (G' t k q Hk Hq))|].
    transitivity (sum n (fun j => A k j * F t j q + -1 * (A k j * G t j q))).
    - rewrite sum_plus, <- sum_l. rr.
    - apply sum_ext. intros j _. unfold D. ring. }
  assert (Z : forall t, derivable_pt_lim f t 0).
  { intros t. eapply deriv_val; [unfold f; apply (sum_deriv n (fun k s => D s k * D s k) (fun k => 2 * (D t k * sum n (fun j => A k j * D t j)))) |].
    - intros k Hk. eapply deriv_val; [exact (derivable_pt_lim_mult _ _ t _ _ (Dd t k Hk) (Dd t k Hk))|]. cbv beta. ring.
    - rewrite <- sum_l, (skew_quad n A (D t) S). ring. }
  assert (f0 : f 0 = 0).
  { unfold f. apply (bsum_0 Rstar). intros k I. apply in_seq in I. unfold D. rewrite F0, G0 by lia. cbv [Rstar s0]. destruct (k =? q)%nat; rr. }
  assert (f1 : f 1 = 0) by (rewrite (const_of_deriv f Z 1 0); exact f0).
  assert (D1 : D 1 p = 0) by (apply (sum_sq0 (seq 0 n) (D 1)); [exact f1|apply in_seq; lia]). unfold D in D1. lra.
Qed.

(** ** one rotation *)
Notation eye := (one_ Rstar).
Lemma FOP_nodup {A} (P : A -> A -> Prop) (l : list A) : (forall x, ~ P x x) -> ForallOrdPairs P l -> NoDup l.
Proof. intros I. induction 1 as [|x l H _ IH]; constructor; [|exact IH]. intros C. rewrite Forall_forall in H. exact (I x (H x C)). Qed.
Lemma tril_strict_nodup norb : NoDup (tril_strict norb).
Proof. apply (FOP_nodup pair_lt); [|apply (triangle_FOP (fun p => p))]. intros [p q]. unfold pair_lt. cbn [fst snd]. lia. Qed.
Lemma low_in norb x k p q : nth_error (tril_strict norb) k = Some (p, q) -> low norb x p q = nth k x 0.
Proof. intros E. unfold low. now rewrite (UggProofs.index_from_nth _ (tril_strict_nodup norb) 0 k p q E). Qed.
Lemma low_out norb x p q : ~ (q < p < norb)%nat -> low norb x p q = 0.
Proof. intros H. unfold low. rewrite UggProofs.index_from_none; [reflexivity|]. now rewrite tril_strict_in. Qed.
Lemma skew_t1_ok norb x : length x = length (tril_strict norb) -> exists t1, skew_t1 norb x = Ok t1 /\ forall p q, t1 p q = low norb x p q - low norb x q p.
Proof.
  intros L. unfold skew_t1. cbv zeta. destruct (Nat.eqb_spec (length x) 1) as [E|E].
  - destruct x as [|y [|]]; try discriminate. cbn [nth]. cbn [length] in L. rewrite <- L. cbn [repeat]. eexists. split; reflexivity.
  - rewrite (proj2 (Nat.eqb_eq _ _) L). eexists. split; reflexivity.
Qed.
Lemma t1_skew norb x t1 n : skew_t1 norb x = Ok t1 -> skew n t1.
Proof.
  unfold skew_t1. cbv zeta. destruct (_ =? 1)%nat; destruct (_ =? _)%nat; try discriminate; intros E; injection E as <-; intros p q _ _; ring.
Qed.
Lemma is_expm_ext n A A' E : (forall p q, (p < n)%nat -> (q < n)%nat -> A p q = A' p q) -> is_expm n A E -> is_expm n A' E.
Proof.
  intros H (F & F0 & F' & F1). exists F. split; [exact F0|]. split; [|exact F1]. intros t p q Hp Hq. eapply deriv_val; [exact (F' t p q Hp Hq)|].
  apply sum_ext. intros k Hk. now rewrite H.
Qed.
(** t (a i - i a) *)
Definition turn (a i : nat) (t : R) (p q : nat) : R :=
  if (p =? a)%nat && (q =? i)%nat then t else if (p =? i)%nat && (q =? a)%nat then - t else 0.
Lemma sum_turn n a i t p (f : nat -> R) : (a < n)%nat -> (i < n)%nat -> a <> i ->
  sum n (fun k => turn a i t p k * f k) = if (p =? a)%nat then t * f i else if (p =? i)%nat then - t * f a else 0.
Proof.
  intros Ha Hi N. destruct (Nat.eqb_spec p a) as [->|N1]; [|destruct (Nat.eqb_spec p i) as [->|N2]].
  - rewrite <- (bsum_one Rstar n (fun k => t * f k) i Hi). apply sum_ext. intros k _. unfold turn, one_. rewrite Nat.eqb_refl. cbn [andb].
    assert (E : (a =? i)%nat = false) by (now apply Nat.eqb_neq). rewrite E. cbn [andb]. destruct (k =? i)%nat; rr.
  - rewrite <- (bsum_one Rstar n (fun k => - t * f k) a Ha). apply sum_ext. intros k _. unfold turn, one_. rewrite Nat.eqb_refl.
    assert (E : (i =? a)%nat = false) by (apply Nat.eqb_neq; auto). rewrite E. cbn [andb]. destruct (k =? a)%nat; rr.
  - apply (bsum_0 Rstar). intros k _. unfold turn. apply Nat.eqb_neq in N1, N2. rewrite N1, N2. cbn [andb]. rr.
Qed.
Lemma d_cos t s : derivable_pt_lim (fun s => cos (t * s)) s (- (t * sin (t * s))).
Proof.
  eapply deriv_val; [apply (derivable_pt_lim_comp (fun s => t * s) cos s); [|apply derivable_pt_lim_cos]|].
  - eapply deriv_val; [exact (derivable_pt_lim_scal id t s 1 (derivable_pt_lim_id s))|]. reflexivity.
  - ring.
Qed.
Lemma d_sin t s : derivable_pt_lim (fun s => sin (t * s)) s (t * cos (t * s)).
Proof.
  eapply deriv_val; [apply (derivable_pt_lim_comp (fun s => t * s) sin s); [|apply derivable_pt_lim_sin]|].
  - eapply deriv_val; [exact (derivable_pt_lim_scal id t s 1 (derivable_pt_lim_id s))|]. reflexivity.
  - ring.
Qed.
Lemma givens_expm n a i t : (a < n)%nat -> (i < n)%nat -> a <> i -> is_expm n (turn a i t) (givens Rstar a i (cos t) (sin t)).
Proof.
  intros Ha Hi N. exists (fun s => givens Rstar a i (cos (t * s)) (sin (t * s))).
  assert (A1 : (a =? i)%nat = false) by (now apply Nat.eqb_neq). assert (A2 : (i =? a)%nat = false) by (apply Nat.eqb_neq; auto). split; [|split].
  - intros p q _ _. rewrite Rmult_0_r, cos_0, sin_0. unfold givens, one_. destruct (Nat.eqb_spec q i) as [->|N1]; [|destruct (Nat.eqb_spec q a) as [->|N2]].
    + destruct (p =? i)%nat; [reflexivity|]. now destruct (p =? a)%nat.
    + destruct (p =? a)%nat; [reflexivity|]. destruct (p =? i)%nat; [rr|reflexivity].
    + reflexivity.
  - intros s p q Hp Hq. eapply deriv_val; [|symmetry; apply sum_turn; assumption]. unfold givens, one_.
    destruct (Nat.eqb_spec q i) as [->|N1]; [|destruct (Nat.eqb_spec q a) as [->|N2]]; rewrite ?Nat.eqb_refl, ?A1, ?A2.
    + destruct (Nat.eqb_spec p a) as [->|M1]; [rewrite A1; eapply deriv_val; [apply d_sin|rr]|]. destruct (Nat.eqb_spec p i) as [->|M2]; [|apply derivable_pt_lim_const].
      eapply deriv_val; [apply d_cos|rr].
    + destruct (Nat.eqb_spec p a) as [->|M1]; [eapply deriv_val; [apply d_cos|rr]|]. destruct (Nat.eqb_spec p i) as [->|M2]; [|apply derivable_pt_lim_const].
      eapply deriv_val; [exact (derivable_pt_lim_opp _ _ _ (d_sin t s))|rr].
    + apply Nat.eqb_neq in N1, N2. destruct (Nat.eqb_spec p a) as [->|M1]; [|destruct (Nat.eqb_spec p i) as [->|M2]].
      * eapply deriv_val; [apply derivable_pt_lim_const|]. rewrite (Nat.eqb_sym i), N1. rr.
      * eapply deriv_val; [apply derivable_pt_lim_const|]. rewrite (Nat.eqb_sym a), N2. rr.
      * apply derivable_pt_lim_const.
  - intros p q _ _. now rewrite Rmult_1_r.
Qed.
Notation omat norb l := (orbmat Rstar norb R cos sin l).
Lemma givens_0 a i p q : givens Rstar a i (cos 0) (sin 0) p q = eye p q.
Proof.
  rewrite cos_0, sin_0. unfold givens, one_. destruct (Nat.eqb_spec q i) as [->|N1]; [|destruct (Nat.eqb_spec q a) as [->|N2]]; [| |reflexivity].
  - destruct (p =? i)%nat; [reflexivity|]. now destruct (p =? a)%nat.
  - destruct (p =? a)%nat; [reflexivity|]. destruct (p =? i)%nat; [rr|reflexivity].
Qed.
Lemma mmul_one_l n (B : rfun) p q : (p < n)%nat -> mmul Rstar n eye B p q = B p q.
Proof.
  intros Hp. unfold mmul. rewrite <- (bsum_one Rstar n (fun k => B k q) p Hp). apply bsum_ext. intros k _. f_equal. unfold one_. now rewrite Nat.eqb_sym.
Qed.
Lemma mmul_one_r n (A : rfun) p q : (q < n)%nat -> mmul Rstar n A eye p q = A p q.
Proof. intros Hq. unfold mmul. rewrite <- (bsum_one Rstar n (fun k => A p k) q Hq). apply (bsum_ext Rstar). intros k _. rr. Qed.
Lemma mmul_ext n (A A' B B' : rfun) p q : (forall k, (k < n)%nat -> A p k = A' p k) -> (forall k, (k < n)%nat -> B k q = B' k q) -> mmul Rstar n A B p q = mmul Rstar n A' B' p q.
Proof. intros HA HB. apply (bsum_ext Rstar). intros k I. apply in_seq in I. now rewrite HA, HB by lia. Qed.
Lemma orbmat_zeros n l : Forall (fun x => snd x = 0) l -> forall p q, (p < n)%nat -> (q < n)%nat -> omat n l p q = eye p q.
Proof.
  induction 1 as [|[[a i] t] l Hx Hl IH]; intros p q Hp Hq; [reflexivity|]. cbn [orbmat fst snd] in *. subst t.
  rewrite (mmul_ext n _ (omat n l) _ eye p q); [now rewrite mmul_one_r, IH|reflexivity|]. intros k _. apply givens_0.
Qed.
Lemma orbmat_one n l1 a i t l2 : Forall (fun x => snd x = 0) l1 -> Forall (fun x => snd x = 0) l2 -> forall p q, (p < n)%nat -> (q < n)%nat ->
  omat n (l1 ++ (a, i, t) :: l2) p q = givens Rstar a i (cos t) (sin t) p q.
Proof.
  intros H1 H2. induction H1 as [|[[b j] s] l1 Hx Hl IH]; intros p q Hp Hq; cbn [app orbmat fst snd] in *.
  - rewrite (mmul_ext n _ eye _ (givens Rstar a i (cos t) (sin t)) p q); [now apply mmul_one_l| |reflexivity]. intros k Hk. now apply orbmat_zeros.
  - subst s. rewrite (mmul_ext n _ (omat n (l1 ++ (a, i, t) :: l2)) _ eye p q); [now rewrite mmul_one_r, IH|reflexivity|]. intros k _. apply givens_0.
Qed.
Lemma combine_app2 {A B} (a1 a2 : list A) (b1 b2 : list B) : length a1 = length b1 -> combine (a1 ++ a2) (b1 ++ b2) = combine a1 b1 ++ combine a2 b2.
Proof. revert b1. induction a1 as [|x a1 IH]; intros [|y b1] L; try discriminate; [reflexivity|]. cbn. f_equal. apply IH. cbn in L; lia. Qed.
(** rotate_mo returns the orbitals of the wave function if no more than one amplitude differs from zero *)
Theorem C63_rotate_mo expm norb mo x k t1 : length x = length (tril_strict norb) -> (forall j, j <> k -> nth j x 0 = 0) ->
  skew_t1 norb x = Ok t1 -> is_expm norb t1 (expm norb t1) ->
  exists C, rotate_mo expm norb mo x = Ok C /\ forall mu q, (q < norb)%nat -> C mu q = sum norb (fun p => mo mu p * orbitals norb x p q).
Proof.
  intros L Z Et Ex. unfold rotate_mo. rewrite Et. cbn [bind]. eexists. split; [reflexivity|]. cbv beta. intros mu q Hq. apply sum_ext. intros p Hp. f_equal.
  destruct (skew_t1_ok norb x L) as (t1' & Et' & T). rewrite Et in Et'. injection Et' as <-.
  destruct (Nat.lt_ge_cases k (length x)) as [Hk|Hk].
  - destruct (nth_error (tril_strict norb) k) as [[a i]|] eqn:Ek; [|apply nth_error_None in Ek; lia].
    assert (B : (i < a < norb)%nat) by (apply tril_strict_in; now apply nth_error_In in Ek).
    destruct (nth_error_split _ _ Ek) as (i1 & i2 & Ei & Li). destruct (nth_error x k) as [t|] eqn:Ext; [|apply nth_error_None in Ext; lia].
    destruct (nth_error_split _ _ Ext) as (x1 & x2 & Ex1 & Lx).
    assert (Zf : forall (c : list (nat * nat)) y, (forall v, In v y -> v = 0) -> Forall (fun z : nat * nat * R => snd z = 0) (combine c y)).
    { intros c y Hy. apply Forall_forall. intros [[b j] v] I. apply in_combine_r in I. now apply Hy. }
    assert (Or : orbitals norb x p q = givens Rstar a i (cos t) (sin t) p q).
    { unfold orbitals. rewrite Ei, Ex1, combine_app2 by lia. cbn [combine]. apply orbmat_one; auto; apply Zf.
      - intros v I. apply In_nth with (d := 0) in I. destruct I as (j & Hj & <-). transitivity (nth j x 0); [|apply Z; lia]. rewrite Ex1, app_nth1 by exact Hj. reflexivity.
      - intros v I. apply In_nth with (d := 0) in I. destruct I as (j & Hj & <-). transitivity (nth (k + S j) x 0); [|apply Z; lia]. rewrite Ex1, app_nth2 by lia. replace (k + S j - length x1)%nat with (S j) by lia. reflexivity. }
    rewrite Or. apply (expm_unique norb t1); auto; [apply (t1_skew _ _ _ _ Et)|].
    apply (is_expm_ext norb (turn a i t)); [|apply givens_expm; lia].
    assert (Lo : forall b j, low norb x b j = if (b =? a)%nat && (j =? i)%nat then t else 0).
    { intros b j. destruct (Nat.eqb_spec b a) as [->|N1]; [destruct (Nat.eqb_spec j i) as [->|N2]|]; cbn [andb].
      - rewrite (low_in norb x k a i Ek). now apply nth_error_nth.
      - destruct (Nat.lt_ge_cases j a) as [Hj|Hj]; [|apply low_out; lia]. assert (I : In (a, j) (tril_strict norb)) by (apply tril_strict_in; lia).
        apply In_nth_error in I. destruct I as [k' E']. rewrite (low_in norb x k' a j E'). apply Z. intros ->. rewrite Ek in E'. injection E' as E'. auto.
      - destruct (Nat.lt_ge_cases j b) as [Hj|Hj]; [|apply low_out; lia]. destruct (Nat.lt_ge_cases b norb) as [Hb|Hb]; [|apply low_out; lia].
        assert (I : In (b, j) (tril_strict norb)) by (apply tril_strict_in; lia).
        apply In_nth_error in I. destruct I as [k' E']. rewrite (low_in norb x k' b j E'). apply Z. intros ->. rewrite Ek in E'. injection E' as E'. auto. }
    intros b j _ _. rewrite T, !Lo. unfold turn. assert (N : a <> i) by lia. clear - N.
    repeat match goal with |- context [Nat.eqb ?y ?z] => destruct (Nat.eqb_spec y z) end; cbn [andb]; subst; try congruence; lra.
  - assert (X0 : forall v, In v x -> v = 0). { intros v I. apply In_nth with (d := 0) in I. destruct I as (j & Hj & <-). apply Z. lia. }
    assert (Or : orbitals norb x p q = eye p q).
    { apply orbmat_zeros; auto. apply Forall_forall. intros [[b j] v] I. apply in_combine_r in I. now apply X0. }
    rewrite Or. apply (expm_unique norb t1); auto; [apply (t1_skew _ _ _ _ Et)|]. exists (fun _ => eye). split; [reflexivity|]. split; [|reflexivity].
    intros s b j Hb Hj. eapply deriv_val; [apply derivable_pt_lim_const|]. symmetry. apply (bsum_0 Rstar). intros c _. rewrite T.
    assert (Lo : forall b j, low norb x b j = 0). { intros b' j'. unfold low. destruct (index_from 0 (tril_strict norb) b' j') as [y|]; [|reflexivity]. destruct (Nat.eq_dec y k) as [->|N]; [now apply nth_overflow|now apply Z]. }
    rewrite !Lo. rr.
Qed.

(** ** to first order in the amplitudes, the orbitals are those of exp (t1) *)
Notation lsum l f := (bsum (K := Rstar) l f).
Lemma d_cos' t : derivable_pt_lim (fun s => cos (s * t)) 0 0.
Proof. eapply deriv_ext; [|eapply deriv_val; [exact (d_cos t 0)|]]. { intros s. cbv beta. now rewrite Rmult_comm. } rewrite Rmult_0_r, sin_0. ring. Qed.
Lemma d_sin' t : derivable_pt_lim (fun s => sin (s * t)) 0 t.
Proof. eapply deriv_ext; [|eapply deriv_val; [exact (d_sin t 0)|]]. { intros s. cbv beta. now rewrite Rmult_comm. } rewrite Rmult_0_r, cos_0. ring. Qed.
Lemma givens_d a i t k q : a <> i -> derivable_pt_lim (fun s => givens Rstar a i (cos (s * t)) (sin (s * t)) k q) 0 (turn a i t k q).
Proof.
  intros N. unfold givens, turn. assert (A1 : (a =? i)%nat = false) by (now apply Nat.eqb_neq). assert (A2 : (i =? a)%nat = false) by (apply Nat.eqb_neq; auto).
  destruct (Nat.eqb_spec q i) as [->|N1]; [|destruct (Nat.eqb_spec q a) as [->|N2]]; rewrite ?Nat.eqb_refl, ?A1, ?A2, ?andb_true_r, ?andb_false_r.
  - destruct (Nat.eqb_spec k i) as [->|M1]; [rewrite A2; apply d_cos'|]. destruct (k =? a)%nat; [apply d_sin'|apply derivable_pt_lim_const].
  - destruct (Nat.eqb_spec k a) as [->|M1]; [rewrite A1; apply d_cos'|]. destruct (k =? i)%nat; [exact (derivable_pt_lim_opp _ _ _ (d_sin' t))|apply derivable_pt_lim_const].
  - apply derivable_pt_lim_const.
Qed.
Lemma deriv_0 n l : Forall (fits n R) l -> forall p q, (p < n)%nat -> (q < n)%nat ->
  derivable_pt_lim (fun s => omat n (map (fun y => (fst y, s * snd y)) l) p q) 0 (lsum l (fun y => turn (fst (fst y)) (snd (fst y)) (snd y) p q)).
Proof.
  induction 1 as [|[[a i] t] l (Ha & Hi & N) Hl IH]; intros p q Hp Hq; [apply derivable_pt_lim_const|]. cbn [fst snd] in *. cbn [map orbmat fst snd]. unfold mmul.
  assert (O0 : forall k, (k < n)%nat -> omat n (map (fun y => (fst y, 0 * snd y)) l) p k = eye p k).
  { intros k Hk. apply orbmat_zeros; auto. apply Forall_forall. intros y I. apply in_map_iff in I. destruct I as (z & <- & _). cbn [snd]. ring. }
  eapply deriv_val.
  - apply (sum_deriv n (fun k s => omat n (map (fun y => (fst y, s * snd y)) l) p k * givens Rstar a i (cos (s * t)) (sin (s * t)) k q)
      (fun k => lsum l (fun y => turn (fst (fst y)) (snd (fst y)) (snd y) p k) * eye k q + eye p k * turn a i t k q)).
    intros k Hk. eapply deriv_val; [exact (derivable_pt_lim_mult _ _ 0 _ _ (IH p k Hp Hk) (givens_d a i t k q N))|]. cbv beta. rewrite Rmult_0_l, givens_0, (O0 k Hk). reflexivity.
  - rewrite sum_plus. pose proof (mmul_one_r n (fun p k => lsum l (fun y => turn (fst (fst y)) (snd (fst y)) (snd y) p k)) p q Hq) as M1.
    pose proof (mmul_one_l n (turn a i t) p q Hp) as M2. unfold mmul in M1, M2. cbv [smul Rstar] in M1, M2 |- *. rewrite M1, M2. cbn [bsum fst snd sadd]. ring.
Qed.
Lemma index_from_S l : forall n p q, index_from (S n) l p q = option_map S (index_from n l p q).
Proof. induction l as [|r l IH]; intros n p q; cbn [index_from]; [reflexivity|]. destruct ((fst r =? p) && (snd r =? q))%nat; [reflexivity|apply IH]. Qed.
Lemma low_sum (idx : list (nat * nat)) (x : list R) p q : NoDup idx -> length x = length idx ->
  lsum (combine idx x) (fun y => if ((fst (fst y) =? p) && (snd (fst y) =? q))%nat then snd y else 0) = match index_from 0 idx p q with Some k => nth k x 0 | None => 0 end.
Proof.
  intros ND. revert x. induction ND as [|[a i] idx Na ND IH]; intros [|t x] L; try discriminate; [reflexivity|].
  assert (Lx : length x = length idx) by (cbn in L; lia). cbn [combine bsum fst snd index_from]. rewrite (IH x Lx), index_from_S. clear IH L.
  destruct (Nat.eqb_spec a p) as [->|N1]; [destruct (Nat.eqb_spec i q) as [->|N2]|]; cbn [andb].
  - rewrite index_from_none by exact Na. cbn [nth]. rr.
  - destruct (index_from 0 idx p q); cbn [option_map nth]; rr.
  - destruct (index_from 0 idx p q); cbn [option_map nth]; rr.
Qed.
Theorem C63_first_order norb x t1 p q : length x = length (tril_strict norb) -> skew_t1 norb x = Ok t1 -> (p < norb)%nat -> (q < norb)%nat ->
  derivable_pt_lim (fun s => orbitals norb (map (Rmult s) x) p q) 0 (t1 p q).
Proof.
  intros L Et Hp Hq. destruct (skew_t1_ok norb x L) as (t1' & Et' & T). rewrite Et in Et'. injection Et' as <-.
  assert (Ec : forall s (idx : list (nat * nat)) y, combine idx (map (Rmult s) y) = map (fun z => (fst z, s * snd z)) (combine idx y)).
  { intros s. induction idx as [|a idx IH]; intros [|t y]; cbn; try reflexivity. now rewrite IH. }
  eapply deriv_ext; [intros s; unfold orbitals; rewrite Ec; reflexivity|]. eapply deriv_val; [exact (deriv_0 norb _ (tril_fits norb x) p q Hp Hq)|].
  rewrite T. unfold low. rewrite <- !low_sum by (auto using tril_strict_nodup).
  assert (Fi : Forall (fun y : nat * nat * R => fst (fst y) <> snd (fst y)) (combine (tril_strict norb) x)) by (eapply Forall_impl; [|apply tril_fits]; intros y (_ & _ & N); exact N).
  induction Fi as [|[[a i] t] l N _ IH]; cbn [bsum]; [rr|]. rewrite IH. cbn [fst snd] in *. clear IH. unfold turn.
  set (A := lsum l _). set (B := lsum l _). clearbody A B. rewrite (Nat.eqb_sym p a), (Nat.eqb_sym q i), (Nat.eqb_sym p i), (Nat.eqb_sym q a).
  destruct (Nat.eqb_spec a p), (Nat.eqb_spec i q), (Nat.eqb_spec i p), (Nat.eqb_spec a q); cbn [andb]; subst; try congruence; rr.
Qed.

(** ** three orbitals *)
Definition tab3 (l : list (list R)) (p q : nat) : R := nth q (nth p l []) 0.
Definition x3 : list R := [2 * PI / 3; 2 * PI / 3; PI / 3].
(** a half turn about the axis (1, -2, 2) / 3 *)
Definition axis2 : rfun := tab3 [[1/9; -2/9; 2/9]; [-2/9; 4/9; -4/9]; [2/9; -4/9; 4/9]].
Definition cross : rfun := tab3 [[0; -2/3; -2/3]; [2/3; 0; -1/3]; [2/3; 1/3; 0]].
Definition half_turn : rfun := tab3 [[-7/9; -4/9; 4/9]; [-4/9; -1/9; -8/9]; [4/9; -8/9; -1/9]].
Lemma cases3 (P : nat -> nat -> Prop) : P 0%nat 0%nat -> P 0%nat 1%nat -> P 0%nat 2%nat -> P 1%nat 0%nat -> P 1%nat 1%nat -> P 1%nat 2%nat -> P 2%nat 0%nat -> P 2%nat 1%nat -> P 2%nat 2%nat ->
  forall p q, (p < 3)%nat -> (q < 3)%nat -> P p q.
Proof. intros. destruct p as [|[|[|]]]; [| | |lia]; destruct q as [|[|[|]]]; try lia; assumption. Qed.
Lemma t1_3 : exists t1, skew_t1 3 x3 = Ok t1 /\ forall p q, (p < 3)%nat -> (q < 3)%nat -> t1 p q = PI * cross p q.
Proof.
  destruct (skew_t1_ok 3 x3 eq_refl) as (t1 & E & T). exists t1. split; [exact E|]. apply cases3; rewrite T; unfold low, cross, tab3; cbn [tril_strict flat_map seq map app index_from fst snd Nat.eqb andb nth x3]; field.
Qed.
Lemma half_turn_expm t1 : (forall p q, (p < 3)%nat -> (q < 3)%nat -> t1 p q = PI * cross p q) -> is_expm 3 t1 half_turn.
Proof.
  intros T. exists (fun s p q => axis2 p q + (cos (PI * s) * ((if (p =? q)%nat then 1 else 0) - axis2 p q) + sin (PI * s) * cross p q)). split; [|split].
  - intros p q _ _. rewrite Rmult_0_r, cos_0, sin_0. ring.
  - intros s p q Hp Hq. eapply deriv_val.
    + apply derivable_pt_lim_plus; [apply derivable_pt_lim_const|]. apply derivable_pt_lim_plus.
      * apply derivable_pt_lim_mult; [apply d_cos|apply derivable_pt_lim_const].
      * apply derivable_pt_lim_mult; [apply d_sin|apply derivable_pt_lim_const].
    + cbv beta. rewrite (sum_ext 3 _ (fun k => PI * cross p k * (axis2 k q + (cos (PI * s) * ((if (k =? q)%nat then 1 else 0) - axis2 k q) + sin (PI * s) * cross k q)))) by (intros k Hk; now rewrite T).
      generalize (cos (PI * s)) (sin (PI * s)) PI. intros c z w. revert p q Hp Hq. apply cases3; unfold axis2, cross, tab3; cbn [bsum seq nth Nat.eqb]; cbv [Rstar sadd smul s0]; field.
  - intros p q Hp Hq. rewrite Rmult_1_r, cos_PI, sin_PI. revert p q Hp Hq. apply cases3; unfold axis2, cross, half_turn, tab3; cbn [nth Nat.eqb]; field.
Qed.
Lemma orb3 : orbitals 3 x3 0 0 = 1/4 /\ orbitals 3 x3 1 0 = 3/8 + sqrt 3 / 4.
Proof.
  assert (C1 : cos (2 * PI / 3) = -1/2) by (rewrite <- cos_2PI3; f_equal; field).
  assert (S1 : sin (2 * PI / 3) = sqrt 3 / 2) by (rewrite <- sin_2PI3; f_equal; field).
  unfold orbitals, x3. cbn [tril_strict flat_map seq map app combine orbmat]. unfold mmul, givens, one_. cbn [bsum seq fst snd Nat.eqb].
  rewrite C1, S1, cos_PI3, sin_PI3. cbv [Rstar sadd smul sopp s0 s1 car]. assert (Q : sqrt 3 * sqrt 3 = 3) by (apply sqrt_sqrt; lra). split; nra.
Qed.
(** Finding: for three orbitals the orbital returned for the electron is not the one it is in *)
Theorem C63_rotate_mo_refuted : exists norb x, length x = length (tril_strict norb) /\
  (exists t1 E, skew_t1 norb x = Ok t1 /\ is_expm norb t1 E) /\
  forall is0 sched expm t1 C u r, (forall y, is0 y = true -> y = 0) -> (forall l, Permutation (sched l) l) -> skew_t1 norb x = Ok t1 -> is_expm norb t1 (expm norb t1) -> rotate_mo expm norb eye x = Ok C ->
    uccs_uop norb x = Ok u -> call Rstar is0 sched R my_amp cos sin u true false (slater Rstar norb [(0%nat, 0%nat)]) = Ok r ->
    ~ exists c, veq Rstar (2 * norb) r (fun d => c * slater_in Rstar norb C [(0%nat, 0%nat)] d).
Proof.
  exists 3%nat, x3. split; [reflexivity|]. destruct t1_3 as (t0 & E0 & T0). split; [exists t0, half_turn; split; [exact E0|now apply half_turn_expm]|].
  intros is0 sched expm t1 C u r I0 S0 E Ex Ec Eu Er [c V]. rewrite E0 in E. injection E as <-.
  unfold rotate_mo in Ec. rewrite E0 in Ec. cbn [bind] in Ec. injection Ec as <-.
  destruct (C63_determinant is0 I0 sched S0 3 x3 [(0%nat, 0%nat)]) as (u' & r' & Eu' & Er' & V'); [lia|reflexivity|repeat constructor|].
  rewrite Eu in Eu'. injection Eu' as <-. rewrite Er in Er'. injection Er' as <-.
  assert (H : forall p q, (p < 3)%nat -> (q < 3)%nat -> expm 3%nat t0 p q = half_turn p q) by (apply (expm_unique 3 t0); [apply (t1_skew 3 x3 t0 3 E0)|exact Ex|now apply half_turn_expm]).
  assert (Q : forall d p, (d = 1%N /\ p = 0%nat) \/ (d = 2%N /\ p = 1%nat) -> orbitals 3 x3 p 0 = c * half_turn p 0%nat).
  { intros d p Hd. assert (Sd : (d < 2 ^ N.of_nat (2 * 3))%N) by (destruct Hd as [[-> _]|[-> _]]; reflexivity).
    pose proof (V d Sd) as V1. rewrite (V' d Sd) in V1. revert V1. cbn [slater_in bsum seq]. unfold slater_in. unfold cre.
    destruct Hd as [[-> ->]|[-> ->]]; cbn; rewrite !H by lia; unfold half_turn, tab3; cbn [nth]; cbv [Rstar sadd smul sopp s0 s1]; generalize (orbitals 3 x3 0 0) (orbitals 3 x3 1 0) (orbitals 3 x3 2 0); intros; lra. }
  destruct orb3 as [O0 O1]. pose proof (Q 1%N 0%nat ltac:(auto)) as Q0. pose proof (Q 2%N 1%nat ltac:(auto)) as Q1. rewrite O0 in Q0. rewrite O1 in Q1.
  unfold half_turn, tab3 in Q0, Q1. cbn [nth] in Q0, Q1. assert (0 <= sqrt 3) by apply sqrt_pos. lra.
Qed.

(** Finding: a calculation with doubles inherits rotate_mo, which then never works *)
Lemma singles_rows norb : list_sum (map (fun g => length (rows norb true 0 g)) (map single (tril_strict norb))) = length (tril_strict norb).
Proof. generalize (tril_strict norb) as idx. induction idx as [|x idx IH]; [reflexivity|]. cbn [map length]. change (list_sum (?a :: ?b)) with (a + list_sum b)%nat. rewrite IH. reflexivity. Qed.
Lemma cwr_self {A} (l : list A) x : In x l -> In (x, x) (cwr l).
Proof. induction l as [|y l IH]; [intros []|]. intros [->|I]; cbn [cwr]; apply in_app_iff; [left; left; reflexivity|right; auto]. Qed.
Lemma sum_ge (f : gen -> nat) l g : In g l -> (f g <= list_sum (map f l))%nat.
Proof. induction l as [|h l IH]; [intros []|]. cbn [map]. change (list_sum (?a :: ?b)) with (a + list_sum b)%nat. intros [->|I]; [lia|]. specialize (IH I). lia. Qed.
Theorem C63_uccsd expm norb mo : (2 <= norb)%nat -> exists k, uccsd_ngen_uniq norb = Ok k /\
  forall x, length x = k -> rotate_mo expm norb mo x = Raise ValueError.
Proof.
  intros N. unfold uccsd_ngen_uniq, get_uccsd_op. cbv zeta. rewrite uccsd_init. cbn [bind fst snd u_amps].
  pose proof (uccsd_ne norb true N) as NE. unfold get_uniq_amps. destruct (tab norb true 0 (all_of norb)) as [|row st] eqn:Et; [contradiction|]. rewrite <- Et in *. clear row st Et NE. cbn [bind snd].
  eexists. split; [reflexivity|]. intros x L. unfold rotate_mo, skew_t1. cbv zeta.
  assert (G : (length (tril_strict norb) < length x)%nat).
  { rewrite L, tab_len. unfold all_of. rewrite map_app, list_sum_app, singles_rows.
    assert (I : In ([1%nat; 0%nat], [1%nat; 0%nat]) (two_of norb)) by (apply cwr_self; apply (in_map (fun y : nat * nat => [fst y; snd y]) _ (1%nat, 0%nat)), tril_in; lia).
    pose proof (sum_ge (fun g => length (rows norb true 0 g)) _ _ I) as S. cbv beta in S. unfold rows in S at 1. cbn [fst snd] in S.
    rewrite double_same in S by lia. cbn [length map seq] in S. lia. }
  assert (T : (1 <= length (tril_strict norb))%nat).
  { assert (I : In (1%nat, 0%nat) (tril_strict norb)) by (apply tril_strict_in; lia). destruct (tril_strict norb); [destruct I|cbn; lia]. }
  destruct (Nat.eqb_spec (length x) 1); [lia|]. destruct (Nat.eqb_spec (length x) (length (tril_strict norb))); [lia|]. reflexivity.
Qed.

Module Ex.
(** a quarter turn: the electron of orbital 0 goes to orbital 1, that of orbital 1 to orbital 0 with a sign *)
Example quarter : map (fun p => map (orbitals 2 [PI / 2] p) [0; 1]%nat) [0; 1]%nat = [[0; -1]; [1; 0]].
Proof.
  unfold orbitals. cbn [tril_strict flat_map seq map app combine orbmat]. unfold mmul, givens, one_. cbn [bsum seq fst snd Nat.eqb]. rewrite cos_PI2, sin_PI2.
  cbv [Rstar sadd smul sopp s0 s1 car]. repeat (apply (f_equal2 cons)); try reflexivity; ring.
Qed.
Example quarter_expm : exists t1, skew_t1 2 [PI / 2] = Ok t1 /\ t1 1%nat 0%nat = PI / 2 /\ t1 0%nat 1%nat = - (PI / 2) /\ is_expm 2 t1 (orbitals 2 [PI / 2]).
Proof.
  destruct (skew_t1_ok 2 [PI / 2] eq_refl) as (t1 & E & T). exists t1. split; [exact E|]. rewrite !T. split; [unfold low; cbn; ring|]. split; [unfold low; cbn; ring|].
  destruct (givens_expm 2 1 0 (PI / 2)) as (F & F0 & Fd & F1); [lia|lia|lia|]. apply (is_expm_ext 2 (turn 1 0 (PI / 2))).
  - intros p q Hp Hq. rewrite T. destruct p as [|[|]]; [| |lia]; (destruct q as [|[|]]; [| |lia]); unfold turn, low; cbn; ring.
  - exists F. split; [exact F0|]. split; [exact Fd|]. intros p q Hp Hq. rewrite (F1 p q Hp Hq). symmetry. unfold orbitals. cbn [tril_strict flat_map seq map app combine].
    change [(1%nat, 0%nat, PI / 2)] with ([] ++ (1%nat, 0%nat, PI / 2) :: [] : list (nat * nat * R)). apply orbmat_one; auto.
Qed.
Example uccsd_3 : uccsd_ngen_uniq 3 = Ok 45%nat.
Proof. vm_compute. reflexivity. Qed.
End Ex.

Print Assumptions C63_orbitals.
Print Assumptions C63_determinant.
Print Assumptions C63_rotate_mo.
Print Assumptions C63_first_order.
Print Assumptions C63_rotate_mo_refuted.
Print Assumptions C63_uccsd.
