(** The real-number side of the unitary coupled cluster operator: derivatives. *)
From Coq Require Import List NArith ZArith Arith Bool Lia Reals Lra RealField.
From Verif Require Import Base Star FockSpec FockFacts FsuccModel FsuccFacts FsuccProofs FockOps FsuccHop PropFsucc UccModel UccProofs.
Import ListNotations.
Local Open Scope R_scope.

Definition Rstar : star_ring := mkStar R 0 1 Rplus Rmult Rminus Ropp RTheory (fun x => x)
  (fun _ _ => eq_refl) (fun _ _ => eq_refl) (fun _ => eq_refl).
Notation rvec := (N -> R).
Ltac rr := match goal with |- @eq _ ?a ?b => change (@eq R a b) end; cbv [Rstar s0 s1 sadd smul ssub sopp sconj car]; ring.

Lemma deriv_ext (f g : R -> R) t l : (forall s, f s = g s) -> derivable_pt_lim f t l -> derivable_pt_lim g t l.
Proof. intros E H eps He. destruct (H eps He) as [d Hd]. exists d. intros h Hh Hd'. rewrite <- !E. now apply Hd. Qed.
Lemma deriv_val (f : R -> R) t l l' : derivable_pt_lim f t l -> l = l' -> derivable_pt_lim f t l'.
Proof. now intros H <-. Qed.

(** componentwise derivative of a vector among [m] orbitals *)
Definition dvec (m : nat) (F : R -> rvec) (t : R) (D : rvec) : Prop :=
  forall e, valid m e -> derivable_pt_lim (fun s => F s e) t (D e).

Section Real.
Variable m : nat.
Notation dvec := (dvec m).
Notation exop := (exop Rstar m).
Notation gen := (FockSpec.gen Rstar m).
Notation rot := (FockSpec.rot Rstar m).
Notation inner := (FockSpec.inner Rstar m).
Notation veq := (FockSpec.veq Rstar m).

Lemma dvec_exop a i F t D : below m i -> dvec F t D -> dvec (fun s => exop a i (F s)) t (exop a i D).
Proof.
  intros Hi H e He. destruct (exop_reads Rstar m a i e Hi) as [b [e' [Q L]]]. rewrite Q.
  destruct b.
  - apply deriv_ext with (fun _ => 0); [intros s; now rewrite Q|]. apply derivable_pt_lim_const.
  - destruct (sigma m a i (clrs e a)); cbn [sg].
    + apply deriv_ext with (fun s => - F s e'); [intros s; rewrite Q; reflexivity|]. apply (derivable_pt_lim_opp (fun s => F s e')), H, L, He.
    + apply deriv_ext with (fun s => F s e'); [intros s; rewrite Q; reflexivity|]. apply H, L, He.
Qed.
Lemma dvec_gen a i F t D : below m a -> below m i -> dvec F t D -> dvec (fun s => gen a i (F s)) t (gen a i D).
Proof.
  intros Ha Hi H e He.
  apply (derivable_pt_lim_minus (fun s => exop a i (F s) e) (fun s => exop i a (F s) e)); now apply dvec_exop.
Qed.
Notation facR := (fac Rstar R cos sin m false).
Notation dfacR := (dfac Rstar R cos sin m false).
Notation prodR := (prod Rstar R cos sin m false).
Notation item := (list nat * list nat * R)%type.

Lemma comp_deriv (f g : R -> R) t l l' : derivable_pt_lim f t l -> derivable_pt_lim g (f t) l' -> derivable_pt_lim (fun s => g (f s)) t (l' * l).
Proof. intros H1 H2. exact (derivable_pt_lim_comp f g t l l' H1 H2). Qed.

Lemma dvec_fac g F t D (th : R -> R) th' : sane m g -> dvec F t D -> derivable_pt_lim th t th' ->
  dvec (fun s => facR (g, th s) (F s)) t (fun e => facR (g, th t) D e + th' * dfacR (g, th t) (F t) e).
Proof.
  intros [Ha [Hi _]] HF Hth e He. unfold fac, dfac, FockSpec.rot. cbn [fst snd].
  pose proof (dvec_gen (fst g) (snd g) F t D Ha Hi HF) as H1.
  pose proof (dvec_gen (fst g) (snd g) _ t _ Ha Hi H1) as H2.
  specialize (H1 e He). specialize (H2 e He). specialize (HF e He). cbv beta in H1, H2.
  pose proof (comp_deriv th sin t th' _ Hth (derivable_pt_lim_sin (th t))) as Hs.
  pose proof (comp_deriv th cos t th' _ Hth (derivable_pt_lim_cos (th t))) as Hc.
  pose proof (derivable_pt_lim_minus _ _ t _ _ (derivable_pt_lim_const 1 t) Hc) as Hc1.
  pose proof (derivable_pt_lim_plus _ _ t _ _ (derivable_pt_lim_plus _ _ t _ _ HF (derivable_pt_lim_mult _ _ t _ _ Hs H1)) (derivable_pt_lim_mult _ _ t _ _ Hc1 H2)) as R1.
  eapply deriv_val; [eapply deriv_ext; [|exact R1]|].
  - intros s. cbv [plus_fct mult_fct minus_fct fct_cte Rstar sadd smul ssub s1]. reflexivity.
  - cbv [plus_fct mult_fct minus_fct fct_cte]. rr.
Qed.

(** derivative of a product of factors whose angles move at the speeds [ds] *)
Fixpoint tangent (l : list item) (ds : list R) (v : rvec) : rvec :=
  match l, ds with
  | x :: l, d :: ds => fun e => d * prodR l (dfacR x v) e + tangent l ds (facR x v) e
  | _, _ => fun _ => 0
  end.

Lemma gen_lin2 a i x y (u v : rvec) e : below m a -> below m i -> gen a i (fun d => x * u d + y * v d) e = x * gen a i u e + y * gen a i v e.
Proof. intros Ha Hi. exact (gen_lin Rstar m a i Ha Hi x y u v e). Qed.
Lemma fac_lin g t x y (u v : rvec) e : sane m g -> facR (g, t) (fun d => x * u d + y * v d) e = x * facR (g, t) u e + y * facR (g, t) v e.
Proof.
  intros [Ha [Hi _]]. unfold fac, FockSpec.rot. cbn [fst snd].
  assert (E : gen (fst g) (snd g) (gen (fst g) (snd g) (fun d => x * u d + y * v d)) e = x * gen (fst g) (snd g) (gen (fst g) (snd g) u) e + y * gen (fst g) (snd g) (gen (fst g) (snd g) v) e).
  { transitivity (gen (fst g) (snd g) (fun d => x * gen (fst g) (snd g) u d + y * gen (fst g) (snd g) v d) e); [|now apply gen_lin2].
    apply (gen_val Rstar m); [assumption..|]. intros d. now apply gen_lin2. }
  rewrite E, (gen_lin2 (fst g) (snd g) x y u v e Ha Hi). generalize (gen (fst g) (snd g) u e) (gen (fst g) (snd g) v e) (gen (fst g) (snd g) (gen (fst g) (snd g) u) e) (gen (fst g) (snd g) (gen (fst g) (snd g) v) e).
  intros p q r w. cbv [Rstar car sadd smul ssub s1] in *. rr.
Qed.
Lemma fac_val g t (u v : rvec) e : sane m g -> (forall d, u d = v d) -> facR (g, t) u e = facR (g, t) v e.
Proof.
  intros [Ha [Hi _]] E. unfold fac, FockSpec.rot. cbn [fst snd]. rewrite (E e). rewrite (gen_val Rstar m _ _ u v e Ha Hi E).
  rewrite (gen_val Rstar m _ _ (gen (fst g) (snd g) u) (gen (fst g) (snd g) v) e Ha Hi); [reflexivity|]. intros d. now apply (gen_val Rstar m).
Qed.
Notation ok := (fun x : item => sane m (fst x)).
Lemma prod_cons x l (v : rvec) : prodR (x :: l) v = prodR l (facR x v).
Proof. reflexivity. Qed.
Lemma prod_val l : Forall ok l -> forall (u v : rvec), (forall d, u d = v d) -> forall e, prodR l u e = prodR l v e.
Proof. induction 1 as [|[g t] l Hx Hl IH]; intros u v E e; [apply E|]. rewrite !prod_cons. apply IH. intros d. now apply fac_val. Qed.
Lemma prod_lin l : Forall ok l -> forall x y (u v : rvec) e, prodR l (fun d => x * u d + y * v d) e = x * prodR l u e + y * prodR l v e.
Proof.
  induction 1 as [|[g t] l Hx Hl IH]; intros x y u v e; [reflexivity|]. rewrite !prod_cons.
  rewrite <- (IH x y (facR (g, t) u) (facR (g, t) v)). apply prod_val; [assumption|]. intros d. now apply fac_lin.
Qed.

Definition at_ (l : list (list nat * list nat * (R -> R))) (s : R) : list item := map (fun x => (fst x, snd x s)) l.
Lemma dvec_prod l : forall ds t F D, Forall (fun x => sane m (fst x)) l -> Forall2 (fun x d => derivable_pt_lim (snd x) t d) l ds ->
  dvec F t D -> dvec (fun s => prodR (at_ l s) (F s)) t (fun e => prodR (at_ l t) D e + tangent (at_ l t) ds (F t) e).
Proof.
  induction l as [|[g th] l IH]; intros ds t F D Hl Hd HF.
  - inversion Hd; subst. cbn. intros e He. rewrite Rplus_0_r. now apply HF.
  - inversion Hd as [|? d ? ds' H1 H2]; subst. inversion Hl as [|? ? Hg Hl']; subst. cbn [fst snd] in *.
    cbn [at_ map fst snd tangent]. fold (at_ l t).
    pose proof (IH ds' t (fun s => facR (g, th s) (F s)) _ Hl' H2 (dvec_fac g F t D th d Hg HF H1)) as R1.
    intros e He. specialize (R1 e He). eapply deriv_val; [exact R1|]. cbv beta.
    rewrite <- (Rplus_assoc). f_equal.
    transitivity (prodR (at_ l t) (fun d0 => 1 * facR (g, th t) D d0 + d * dfacR (g, th t) (F t) d0) e).
    + apply prod_val; [|intros d0; ring]. apply Forall_forall. intros x Hx. apply in_map_iff in Hx. destruct Hx as [y [<- Hy]]. cbn. rewrite Forall_forall in Hl'. now apply Hl'.
    + rewrite prod_lin; [|apply Forall_forall; intros x Hx; apply in_map_iff in Hx; destruct Hx as [y [<- Hy]]; cbn; rewrite Forall_forall in Hl'; now apply Hl'].
      rewrite !prod_cons. rr.
Qed.

(** ** linear operators *)
Definition linear (hop : rvec -> rvec) : Prop :=
  (forall u v, veq u v -> veq (hop u) (hop v)) /\
  (forall x y u v, veq (hop (fun d => x * u d + y * v d)) (fun d => x * hop u d + y * hop v d)).
Definition symmetric (hop : rvec -> rvec) : Prop := forall u v, inner (hop u) v = inner u (hop v).
Definition unit_ (d : N) : rvec := fun e => if (e =? d)%N then 1 else 0.

Lemma deriv_sum {A} (l : list A) (f : A -> R -> R) (g : A -> R) t : (forall x, In x l -> derivable_pt_lim (f x) t (g x)) ->
  derivable_pt_lim (fun s => bsum (K := Rstar) l (fun x => f x s)) t (bsum (K := Rstar) l g).
Proof.
  induction l as [|x l IH]; intros H; [apply derivable_pt_lim_const|].
  apply (derivable_pt_lim_plus (f x) (fun s => bsum (K := Rstar) l (fun x => f x s))); [apply H; now left|]. apply IH. intros y Hy. apply H. now right.
Qed.
Lemma hop_unit hop v : linear hop -> veq (hop v) (fun e => bsum (K := Rstar) (dets m) (fun d => v d * hop (unit_ d) e)).
Proof.
  intros [He Hl]. 
  assert (P : forall l, veq (hop (fun e => bsum (K := Rstar) l (fun d => v d * unit_ d e))) (fun e => bsum (K := Rstar) l (fun d => v d * hop (unit_ d) e))).
  { induction l as [|d l IH].
    - intros e Hv. pose proof (Hl 0 0 (fun _ => 0) (fun _ => 0) e Hv) as Z. cbv beta in Z. cbn [bsum].
      transitivity (hop (fun d => 0 * (fun _ => 0) d + 0 * (fun _ => 0) d) e); [|rewrite Z; rr].
      apply He; [|assumption]. intros d _. rr.
    - intros e Hv. cbn [bsum].
      transitivity (hop (fun e => v d * unit_ d e + 1 * bsum (K := Rstar) l (fun d => v d * unit_ d e)) e).
      + apply He; [|assumption]. intros e' _. rr.
      + rewrite Hl by assumption. rewrite (IH e Hv). rr. }
  intros e Hv. rewrite <- (P (dets m) e Hv). apply He; [|assumption]. intros e' He'.
  transitivity (bsum (K := Rstar) (dets m) (fun d => if (e' =? d)%N then v e' else 0)).
  - symmetry. rewrite (bsum_single Rstar _ _ e'); [now rewrite N.eqb_refl|apply NoDup_dets|now apply in_dets|]. intros d _ Hd. destruct (N.eqb_spec e' d); [congruence|reflexivity].
  - apply bsum_ext. intros d _. unfold unit_. destruct (N.eqb_spec e' d) as [->|]; rr.
Qed.
Lemma dvec_hop hop F t D : linear hop -> dvec F t D -> dvec (fun s => hop (F s)) t (hop D).
Proof.
  intros Hh H e He. 
  apply deriv_ext with (fun s => bsum (K := Rstar) (dets m) (fun d => F s d * hop (unit_ d) e)); [intros s; symmetry; now apply (hop_unit hop (F s) Hh)|].
  rewrite (hop_unit hop D Hh e He). apply (deriv_sum (dets m) (fun d s => F s d * hop (unit_ d) e)). intros d Hd. apply in_dets in Hd.
  eapply deriv_val; [apply (derivable_pt_lim_mult (fun s => F s d) (fct_cte (hop (unit_ d) e)) t _ _ (H d Hd) (derivable_pt_lim_const _ t))|].
  cbv [fct_cte]. rr.
Qed.
Lemma inner_comm u v : inner u v = inner v u.
Proof. unfold FockSpec.inner. apply bsum_ext. intros d _. rr. Qed.
Lemma deriv_inner F G t D E : dvec F t D -> dvec G t E -> derivable_pt_lim (fun s => inner (F s) (G s)) t (inner D (G t) + inner (F t) E).
Proof.
  intros HF HG. unfold FockSpec.inner.
  eapply deriv_val; [apply (deriv_sum (dets m) (fun d s => F s d * G s d) (fun d => D d * G t d + F t d * E d))|].
  - intros d Hd. apply in_dets in Hd. apply (derivable_pt_lim_mult (fun s => F s d) (fun s => G s d)); auto.
  - pose proof (bsum_add Rstar (dets m) (fun d => D d * G t d) (fun d => F t d * E d)) as B. exact B.
Qed.

(** ** energy *)
Definition dotl (ds jac : list R) : R := bsum (K := Rstar) (combine ds jac) (fun p => fst p * snd p).
Lemma inner_lin x y u v w : inner (fun d => x * u d + y * v d) w = x * inner u w + y * inner v w.
Proof.
  pose proof (inner_add_l Rstar m w (fun d => x * u d) (fun d => y * v d)) as A.
  pose proof (inner_mul_l Rstar m w u x) as B. pose proof (inner_mul_l Rstar m w v y) as C.
  eapply eq_trans; [exact A|]. eapply eq_trans; [apply f_equal2; [exact B|exact C]|]. reflexivity.
Qed.
Lemma tangent_dot w : forall l ds jac v, Forall ok l -> length ds = length l -> length jac = length l ->
  (forall k y, nth_error l k = Some y -> nth_error jac k = Some (2 * inner (prodR (skipn (S k) l) (dfacR y (prodR (firstn k l) v))) w)) ->
  2 * inner (tangent l ds v) w = dotl ds jac.
Proof.
  induction l as [|x l IH]; intros [|d ds] [|j jac] v Ho Hd Hj H; try discriminate.
  - cbn [tangent]. unfold dotl. cbn. unfold FockSpec.inner. rewrite (bsum_0 Rstar); [rr|]. intros e _. rr.
  - inversion Ho as [|? ? Hx Hl]; subst. cbn [tangent]. unfold dotl. cbn [combine bsum fst snd]. fold (dotl ds jac).
    rewrite <- (IH ds jac (facR x v) Hl); [|now injection Hd|now injection Hj|].
    + pose proof (H 0%nat x eq_refl) as H0. cbn [nth_error skipn firstn] in H0. injection H0 as ->.
      transitivity (2 * inner (fun e => d * prodR l (dfacR x v) e + 1 * tangent l ds (facR x v) e) w).
      { f_equal. unfold FockSpec.inner. apply bsum_ext. intros e _. do 2 f_equal. rr. }
      rewrite inner_lin. change (prodR [] v) with v. rr.
    + intros k y Hk. exact (H (S k) y Hk).
Qed.

Lemma prod_const (v : rvec) t : dvec (fun _ => v) t (fun _ => 0).
Proof. intros e _. apply derivable_pt_lim_const. Qed.
Lemma prod_zero l : Forall ok l -> forall e, prodR l (fun _ => 0) e = 0.
Proof.
  intros H e. transitivity (prodR l (fun d => 0 * (fun _ => 0) d + 0 * (fun _ => 0) d) e); [apply prod_val; [assumption|]; intros; rr|].
  rewrite prod_lin by assumption. rr.
Qed.
Lemma at_ok l t : Forall (fun x => sane m (fst x)) l -> Forall ok (at_ l t).
Proof. intros H. apply Forall_forall. intros x Hx. apply in_map_iff in Hx. destruct Hx as [y [<- Hy]]. cbn. rewrite Forall_forall in H. now apply H. Qed.
Lemma dvec_prod0 l ds t v : Forall (fun x => sane m (fst x)) l -> Forall2 (fun x d => derivable_pt_lim (snd x) t d) l ds ->
  dvec (fun s => prodR (at_ l s) v) t (tangent (at_ l t) ds v).
Proof.
  intros Hl Hd e He. eapply deriv_val; [exact (dvec_prod l ds t (fun _ => v) _ Hl Hd (prod_const v t) e He)|].
  cbv beta. rewrite (prod_zero (at_ l t) (at_ok l t Hl)). rr.
Qed.
Lemma energy_deriv l ds t v hop : Forall (fun x => sane m (fst x)) l -> Forall2 (fun x d => derivable_pt_lim (snd x) t d) l ds ->
  linear hop -> symmetric hop ->
  derivable_pt_lim (fun s => inner (prodR (at_ l s) v) (hop (prodR (at_ l s) v))) t (2 * inner (tangent (at_ l t) ds v) (hop (prodR (at_ l t) v))).
Proof.
  intros Hl Hd Hh Hs. pose proof (dvec_prod0 l ds t v Hl Hd) as H1. pose proof (dvec_hop hop _ t _ Hh H1) as H2.
  eapply deriv_val; [exact (deriv_inner _ _ t _ _ H1 H2)|]. cbv beta.
  rewrite <- (Hs (prodR (at_ l t) v)). rewrite (inner_comm (hop (prodR (at_ l t) v))). rr.
Qed.

(** ** the rotation is the exponential of the generator *)
Section Exp.
Variable g : list nat * list nat.
Hypothesis Hg : sane m g.
Notation G := (gen (fst g) (snd g)).
Lemma dfac_gen t v : veq (dfacR (g, t) v) (G (facR (g, t) v)).
Proof.
  destruct Hg as [Ha [Hi [_ [_ D]]]]. intros e _. unfold fac, dfac. cbn [fst snd]. symmetry.
  exact (gen_rot Rstar m _ _ Ha Hi (differ_of _ _ D) (cos t) (sin t) v e).
Qed.
Lemma fac_0 v e : facR (g, 0) v e = v e.
Proof. unfold fac, FockSpec.rot. cbn [fst snd]. rewrite cos_0, sin_0. rr. Qed.
Lemma fac_ode v t : dvec (fun s => facR (g, s) v) t (G (facR (g, t) v)).
Proof.
  intros e He. rewrite <- (dfac_gen t v e He).
  eapply deriv_val; [exact (dvec_fac g (fun _ => v) t (fun _ => 0) (fun s => s) 1 Hg (prod_const v t) (derivable_pt_lim_id t) e He)|].
  cbv beta. replace (facR (g, t) (fun _ => 0) e) with 0; [rr|]. symmetry. exact (prod_zero [(g, t)] ltac:(repeat constructor; apply Hg) e).
Qed.
Lemma fac_neg t v : veq (facR (g, - t) (facR (g, t) v)) v.
Proof.
  destruct Hg as [Ha [Hi [_ [_ D]]]]. intros e _. unfold fac. cbn [fst snd]. rewrite cos_neg, sin_neg.
  apply (rot_inv Rstar m _ _ Ha Hi (differ_of _ _ D)). cbv [Rstar sadd smul s1]. pose proof (sin2_cos2 t) as P. unfold Rsqr in P. rewrite <- P. rr.
Qed.
Lemma gen_fac_comm t v : veq (G (facR (g, t) v)) (facR (g, t) (G v)).
Proof.
  destruct Hg as [Ha [Hi [_ [_ D]]]]. intros e _. pose proof (gen_rot Rstar m _ _ Ha Hi (differ_of _ _ D) (cos t) (sin t) v e) as E1.
  unfold fac. cbn [fst snd]. rewrite E1. unfold FockSpec.rot. pose proof (gen_cube Rstar m _ _ (differ_of _ _ D) v e) as E2. rewrite E2.
  rr.
Qed.
Lemma exp_unique (F : R -> rvec) : (forall t, dvec F t (G (F t))) -> forall t, veq (F t) (facR (g, t) (F 0)).
Proof.
  intros HF.
  assert (H : forall e, valid m e -> forall t, derivable_pt_lim (fun s => facR (g, - s) (F s) e) t 0).
  { intros e He t.
    eapply deriv_val; [exact (dvec_fac g F t (G (F t)) (fun s => - s) (-1) Hg (HF t) ltac:(apply (derivable_pt_lim_opp id), derivable_pt_lim_id) e He)|].
    cbv beta. rewrite (dfac_gen (- t) (F t) e He), (gen_fac_comm (- t) (F t) e He). rr. }
  intros t. 
  assert (C : forall e, valid m e -> facR (g, - t) (F t) e = F 0 e).
  { intros e He. pose (f := fun s => facR (g, - s) (F s) e).
    assert (pr : derivable f). { intros s. exists 0. exact (H e He s). }
    assert (Z : forall s, derive_pt f s (pr s) = 0). { intros s. apply (derive_pt_eq_0 f s 0 (pr s)). exact (H e He s). }
    pose proof (null_derivative_1 f pr Z) as K0. specialize (K0 t 0). unfold f in K0. rewrite K0.
    rewrite Ropp_0. apply fac_0. }
  intros e He. pose proof (fac_neg (- t) (F t) e He) as E. rewrite Ropp_involutive in E. rewrite <- E.
  apply (fac_ext Rstar R cos sin m); [exact Hg| |exact He]. intros d Hd. now apply C.
Qed.
End Exp.
End Real.
