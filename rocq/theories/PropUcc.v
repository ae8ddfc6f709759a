(** Property C58: the python coupled cluster operator is the product of the exponentials of its
    generators, its derivatives are derivatives, and the gradient of the energy is the gradient of
    the energy.  Exact real arithmetic. *)
From Coq Require Import List NArith ZArith Arith Bool Lia Reals Lra Sorting.Permutation.
From Coq Require QArith Qcanon.
From Verif Require Import Base Star FockSpec FockFacts FsuccModel FsuccFacts FsuccProofs FockOps FsuccHop PropFsucc
  UccModel UccProofs UccReal UccHam UccInit UccUniq.
Import ListNotations.
Local Open Scope R_scope.

(** ** exponentials, as solutions of F' = G F *)
Notation gen := (list nat * list nat)%type.
Definition flow (m : nat) (g : gen) (t : R) (v w : rvec) : Prop :=
  exists F : R -> rvec, (forall s, dvec m F s (FockSpec.gen Rstar m (fst g) (snd g) (F s))) /\ veq Rstar m (F 0) v /\ veq Rstar m (F t) w.
(** the first factor of the list acts first *)
Fixpoint flows (m : nat) (l : list (gen * R)) (v w : rvec) : Prop :=
  match l with
  | [] => veq Rstar m v w
  | (g, t) :: l => exists x, flow m g t v x /\ flows m l x w
  end.
Definition my_amp (tr d : bool) (t : R) : R := (if tr then -1 else 1) * (t + (if d then 1 else 0) * PI / 2).
Definition val {A} (d : A) (r : res A) : A := match r with Ok x => x | Raise _ => d end.
Notation zero := (fun _ : N => 0).
(** all amplitudes but the [k]th as in [x] *)
Definition with_amp (k : nat) (s : R) (x : list R) : list R := upd k (fun _ => s) x.

Lemma my_cos tr (d : bool) t : cos (my_amp tr d t) = if d then - sin t else cos t.
Proof.
  unfold my_amp. destruct tr, d.
  - replace (-1 * (t + 1 * PI / 2)) with (- (PI / 2 + t)) by field. rewrite cos_neg. symmetry. rewrite sin_cos. ring.
  - replace (-1 * (t + 0 * PI / 2)) with (- t) by field. apply cos_neg.
  - replace (1 * (t + 1 * PI / 2)) with (PI / 2 + t) by field. rewrite sin_cos. ring.
  - f_equal. field.
Qed.
Lemma my_sin (tr d : bool) t : sin (my_amp tr d t) = if tr then - (if d then cos t else sin t) else if d then cos t else sin t.
Proof.
  unfold my_amp. destruct tr, d.
  - replace (-1 * (t + 1 * PI / 2)) with (- (PI / 2 + t)) by field. rewrite sin_neg, cos_sin. reflexivity.
  - replace (-1 * (t + 0 * PI / 2)) with (- t) by field. apply sin_neg.
  - replace (1 * (t + 1 * PI / 2)) with (PI / 2 + t) by field. now rewrite cos_sin.
  - f_equal. field.
Qed.
Lemma pythR t : cos t * cos t + sin t * sin t = 1.
Proof. pose proof (sin2_cos2 t) as P. unfold Rsqr in P. lra. Qed.

(** ** derivatives of products *)
Notation prodR m := (prod Rstar R cos sin m false).
Lemma dvec_veq m F F' t D D' : (forall s, veq Rstar m (F' s) (F s)) -> veq Rstar m D' D -> dvec m F t D -> dvec m F' t D'.
Proof.
  intros H1 H2 H e He. rewrite (H2 e He). apply deriv_ext with (fun s => F s e); [intros s; symmetry; exact (H1 s e He)|]. now apply H.
Qed.
Lemma dvec_prodc m l : Forall (fun y : gen * R => sane m (fst y)) l -> forall F t D, dvec m F t D -> dvec m (fun s => prodR m l (F s)) t (prodR m l D).
Proof.
  induction 1 as [|[g c] l Hx Hl IH]; intros F t D H; [exact H|].
  apply (IH (fun s => fac Rstar R cos sin m false (g, c) (F s)) t (fac Rstar R cos sin m false (g, c) D)).
  intros e He. eapply deriv_val; [exact (dvec_fac m g F t D (fun _ => c) 0 Hx H (derivable_pt_lim_const c t) e He)|]. cbv beta.
  generalize (fac Rstar R cos sin m false (g, c) D e) (dfac Rstar R cos sin m false (g, c) (F t) e). intros p q. rr.
Qed.
Lemma dvec_one m l1 l2 g (th : R -> R) th' t v : Forall (fun y : gen * R => sane m (fst y)) l1 -> Forall (fun y : gen * R => sane m (fst y)) l2 -> sane m g ->
  derivable_pt_lim th t th' ->
  dvec m (fun s => prodR m (l1 ++ (g, th s) :: l2) v) t (fun e => th' * prodR m l2 (dfac Rstar R cos sin m false (g, th t) (prodR m l1 v)) e).
Proof.
  intros H1 H2 Hg Hth.
  assert (A : dvec m (fun s => fac Rstar R cos sin m false (g, th s) (prodR m l1 v)) t (fun e => th' * dfac Rstar R cos sin m false (g, th t) (prodR m l1 v) e + 0 * zero e)).
  { intros e He. eapply deriv_val; [exact (dvec_fac m g (fun _ => prodR m l1 v) t zero th th' Hg (prod_const m _ t) Hth e He)|]. cbv beta.
    pose proof (prod_zero m [(g, th t)] ltac:(repeat constructor; apply Hg) e) as Z. change (prodR m [(g, th t)] zero) with (fac Rstar R cos sin m false (g, th t) zero) in Z.
    rewrite Z. generalize (dfac Rstar R cos sin m false (g, th t) (prodR m l1 v) e). intros q. rr. }
  pose proof (dvec_prodc m l2 H2 _ t _ A) as B. clear A. eapply dvec_veq; [| |exact B].
  - intros s. rewrite prod_app. apply veq_refl.
  - intros e He. cbv beta. rewrite (prod_lin m l2 H2 th' 0 (dfac Rstar R cos sin m false (g, th t) (prodR m l1 v)) zero e).
    generalize (prodR m l2 (dfac Rstar R cos sin m false (g, th t) (prodR m l1 v)) e) (prodR m l2 zero e). intros p q. rr.
Qed.
Lemma firstn_F {A} (P : A -> Prop) k l : Forall P l -> Forall P (firstn k l).
Proof. intros H. rewrite <- (firstn_skipn k l) in H. now apply Forall_app in H. Qed.
Lemma skipn_F {A} (P : A -> Prop) k l : Forall P l -> Forall P (skipn k l).
Proof. intros H. rewrite <- (firstn_skipn k l) in H. now apply Forall_app in H. Qed.
Lemma F2_len {A B} (P : A -> B -> Prop) l l' : Forall2 P l l' -> length l = length l'.
Proof. induction 1; cbn; auto. Qed.
Lemma one_l (q : R) : q = 1 * q. Proof. ring. Qed.
Lemma sgn_l (c s p q : R) : - c * p + s * q = -1 * (c * p + - s * q) + 0 * 0. Proof. ring. Qed.
Definition neg (x : gen * R) : gen * R := (fst x, - snd x).
Lemma prod_true m l : forall v, prod Rstar R cos sin m true l v = prodR m (map neg l) v.
Proof.
  induction l as [|[g t] l IH]; intros v; [reflexivity|]. change (prod Rstar R cos sin m true l (fac Rstar R cos sin m true (g, t) v) = prodR m (map neg l) (fac Rstar R cos sin m false (neg (g, t)) v)).
  rewrite IH. f_equal. unfold fac, neg. cbn [fst snd]. now rewrite cos_neg, sin_neg.
Qed.
Lemma neg_sane m l : Forall (fun y : gen * R => sane m (fst y)) l -> Forall (fun y : gen * R => sane m (fst y)) (map neg l).
Proof. intros H. apply Forall_forall. intros y Hy. apply in_map_iff in Hy. destruct Hy as [z [<- Hz]]. rewrite Forall_forall in H. cbn. now apply H. Qed.
Lemma with_amp_split (gs : list gen) : forall k x s, length x = length gs -> (k < length gs)%nat ->
  exists g, nth_error (combine gs x) k = Some (g, nth k x 0) /\ In g gs /\
   combine gs (with_amp k s x) = firstn k (combine gs x) ++ (g, s) :: skipn (S k) (combine gs x).
Proof.
  unfold with_amp. induction gs as [|g gs IH]; intros k [|y x] s L Hk; cbn [length] in *; try discriminate; try lia.
  destruct k as [|k].
  - exists g. cbn. split; [reflexivity|]. split; [now left|reflexivity].
  - destruct (IH k x s ltac:(lia) ltac:(lia)) as [h [H1 [H2 H3]]]. exists h. cbn [combine nth_error upd nth firstn skipn app]. split; [assumption|]. split; [now right|]. now rewrite H3.
Qed.
Lemma with_amp_len k s x : length (with_amp k s x) = length x.
Proof. apply upd_len. Qed.
Lemma invfact_fact n : invfact Rstar (fun n => / INR n) n = / INR (fact n).
Proof.
  induction n as [|n IH]; [cbn; symmetry; apply Rinv_1|]. cbn [invfact]. rewrite IH. change (fact (S n)) with (S n * fact n)%nat. rewrite mult_INR.
  rewrite Rinv_mult. cbv [Rstar smul]. apply Rmult_comm.
Qed.

Section C58.
Variable is0 : R -> bool.
Hypothesis is0_ok : forall x, is0 x = true -> x = 0.
Variable sched : list N -> list N.
Hypothesis sched_ok : forall l, Permutation (sched l) l.
Notation call := (call Rstar is0 sched R my_amp cos sin).
Notation op1u := (op1u Rstar is0 sched R my_amp cos sin).
Notation get_deriv1 := (get_deriv1 Rstar is0 sched R my_amp cos sin).
Notation gen_deriv1 := (gen_deriv1 Rstar is0 sched R my_amp cos sin).
Notation obj_fun := (obj_fun Rstar is0 sched R my_amp cos sin).
Notation obj_uniq := (obj_uniq Rstar is0 sched R my_amp cos sin).
Notation veq := (veq Rstar).
Notation inner := (inner Rstar).

(** ** the constructor accepts exactly the lists of well-formed, different generators *)
Theorem C58_init norb aa ii u : init R 0 norb aa ii = Ok u <->
  length ii = length aa /\ Forall (sane norb) (combine aa ii) /\ unalike (combine aa ii) /\
  u = mkU R norb (combine aa ii) (repeat 0 (length aa)).
Proof.
  unfold init. cbv zeta. destruct (length ii =? length aa)%nat eqn:L; cbn [py_assert].
  - apply Nat.eqb_eq in L. pose proof (sanity_ok norb (combine aa ii)) as S. destruct (assert_sanity norb (combine aa ii)) as [[]|e]; cbn [bind].
    + destruct (proj1 S eq_refl) as [S1 S2]. split; [intros E; injection E as <-; auto|]. now intros [_ [_ [_ ->]]].
    + split; [discriminate|]. intros [_ [S1 [S2 _]]]. assert (Raise e = Ok tt) by (apply S; auto). discriminate.
  - apply Nat.eqb_neq in L. split; [discriminate|tauto].
Qed.

Section Operator.
Variables (m : nat) (aa ii : list (list nat)) (u0 : uop R).
Hypothesis Hm : (m < 31)%nat.
Hypothesis Hinit : init R 0 m aa ii = Ok u0.
Notation uop x := (set_amps R u0 x).
Notation gens := (combine aa ii).
Let lenii : length ii = length aa.
Proof. now apply C58_init in Hinit. Qed.
Let usane : Forall (sane m) gens.
Proof. now apply C58_init in Hinit. Qed.
Let ugens : u_gens R u0 = gens.
Proof. apply C58_init in Hinit. destruct Hinit as [_ [_ [_ ->]]]. reflexivity. Qed.
Let unorb : u_norb R u0 = m.
Proof. apply C58_init in Hinit. destruct Hinit as [_ [_ [_ ->]]]. reflexivity. Qed.
Let glen : length gens = length aa.
Proof. rewrite combine_length. lia. Qed.
Let S1 x : Forall (sane m) (u_gens R (uop x)).
Proof. cbn. now rewrite ugens. Qed.
Let S2 (x : list R) : length x = length aa -> length (u_amps R (uop x)) = length (u_gens R (uop x)).
Proof. cbn. rewrite ugens, glen. auto. Qed.
Let facs_eq x : facs R (uop x) = combine gens x.
Proof. unfold facs. cbn. now rewrite ugens. Qed.
Let facs_sane (x : list R) : Forall (fun y : gen * R => sane m (fst y)) (combine gens x).
Proof. apply Forall_forall. intros [g t] H. apply in_combine_l in H. rewrite Forall_forall in usane. now apply usane. Qed.

Lemma call_spec x tr psi : length x = length aa -> exists r, call (uop x) true tr psi = Ok r /\
  veq m r (if tr then prod Rstar R cos sin m true (rev (combine gens x)) psi else prodR m (combine gens x) psi).
Proof.
  intros L. destruct (call_ok Rstar is0 is0_ok sched sched_ok R my_amp cos sin my_cos my_sin m Hm (uop x) unorb (S1 x) (S2 x L) tr psi psi (veq_refl _ _ _)) as [r [E V]].
  exists r. split; [exact E|]. now rewrite facs_eq in V.
Qed.

Lemma flow_fac g t v : sane m g -> flow m g t v (fac Rstar R cos sin m false (g, t) v).
Proof.
  intros Hg. exists (fun s => fac Rstar R cos sin m false (g, s) v). split; [intros s; now apply fac_ode|]. split; [intros e _; now apply fac_0|apply veq_refl].
Qed.
Lemma flows_prod l : Forall (fun y : gen * R => sane m (fst y)) l -> forall v w, veq m (prodR m l v) w -> flows m l v w.
Proof.
  induction 1 as [|[g t] l Hx Hl IH]; intros v w E; [exact E|]. cbn [flows]. exists (fac Rstar R cos sin m false (g, t) v). split; [now apply flow_fac|]. now apply IH.
Qed.
(** ** U psi: each factor the exponential of its amplitude times its generator, first generator first *)
Theorem C58_call x psi : length x = length aa -> exists r, call (uop x) true false psi = Ok r /\ flows m (combine gens x) psi r.
Proof.
  intros L. destruct (call_spec x false psi L) as [r [E V]]. exists r. split; [exact E|]. apply flows_prod; [apply facs_sane|]. now apply veq_sym.
Qed.
(** ... and there is only one such vector *)
Theorem C58_call_unique x psi w w' : flows m (combine gens x) psi w -> flows m (combine gens x) psi w' -> veq m w w'.
Proof.
  assert (G : forall l, Forall (fun y : gen * R => sane m (fst y)) l -> forall v v' w w', veq m v v' -> flows m l v w -> flows m l v' w' -> veq m w w').
  { induction 1 as [|[g t] l Hx Hl IH]; intros v v' y y' E H H'.
    - apply veq_trans with v; [now apply veq_sym|]. now apply veq_trans with v'.
    - destruct H as [z [[F [F1 [F2 F3]]] H]], H' as [z' [[F' [F1' [F2' F3']]] H']]. refine (IH z z' y y' _ H H').
      apply veq_trans with (F t); [now apply veq_sym|]. apply veq_trans with (F' t); [|assumption].
      eapply veq_trans; [apply (exp_unique m g Hx F F1)|]. eapply veq_trans; [|apply veq_sym; apply (exp_unique m g Hx F' F1')].
      apply (fac_ext Rstar R cos sin m false (g, t)); [assumption|].
      apply veq_trans with v; [assumption|]. apply veq_trans with v'; [assumption|]. now apply veq_sym. }
  apply G; [apply facs_sane|apply veq_refl].
Qed.
(** ** transpose=True undoes it, is its adjoint, and nothing changes norms *)
Theorem C58_inverse x tr psi r r' : length x = length aa -> call (uop x) true tr psi = Ok r -> call (uop x) true (negb tr) r = Ok r' -> veq m r' psi.
Proof.
  intros L E E'. destruct (call_spec x tr psi L) as [q [Q V]], (call_spec x (negb tr) r L) as [q' [Q' V']].
  assert (q = r) by congruence. assert (q' = r') by congruence. subst q q'. destruct tr; cbn [negb] in *.
  - eapply veq_trans; [exact V'|]. eapply veq_trans; [apply (prod_ext Rstar R cos sin m); [apply facs_sane|exact V]|].
    apply (prod_rev' Rstar R cos sin pythR m false). apply facs_sane.
  - eapply veq_trans; [exact V'|]. eapply veq_trans; [apply (prod_ext Rstar R cos sin m); [apply Forall_rev, facs_sane|exact V]|].
    apply (prod_rev Rstar R cos sin pythR m false). apply facs_sane.
Qed.
Theorem C58_adjoint x phi psi r r' : length x = length aa -> call (uop x) true false psi = Ok r -> call (uop x) true true phi = Ok r' ->
  inner m r phi = inner m psi r'.
Proof.
  intros L E E'. destruct (call_spec x false psi L) as [q [Q V]], (call_spec x true phi L) as [q' [Q' V']].
  assert (q = r) by congruence. assert (q' = r') by congruence. subst q q'. cbn iota in V, V'.
  rewrite (inner_ext Rstar m r (prodR m (combine gens x) psi) phi phi V (veq_refl _ _ _)).
  rewrite (inner_ext Rstar m psi psi r' _ (veq_refl _ _ _) V').
  apply (prod_adj Rstar R cos sin (fun _ => eq_refl) (fun _ => eq_refl) m false). apply facs_sane.
Qed.
Theorem C58_isometry x tr phi psi r r' : length x = length aa -> call (uop x) true tr psi = Ok r -> call (uop x) true tr phi = Ok r' ->
  inner m r r' = inner m psi phi.
Proof.
  intros L E E'. destruct (call_spec x tr psi L) as [q [Q V]], (call_spec x tr phi L) as [q' [Q' V']].
  assert (q = r) by congruence. assert (q' = r') by congruence. subst q q'.
  rewrite (inner_ext Rstar m _ _ _ _ V V'). 
  destruct tr; apply (prod_iso Rstar R cos sin pythR (fun _ => eq_refl) (fun _ => eq_refl) m); [apply Forall_rev|]; apply facs_sane.
Qed.
(** ** gen_deriv1 yields, for each generator, the derivative of U psi with respect to its amplitude *)
Theorem C58_deriv x psi : length x = length aa -> exists ys, gen_deriv1 (uop x) true psi false true = (ys, None) /\ length ys = length aa /\
  forall k, (k < length aa)%nat -> exists y, nth_error ys k = Some y /\
    dvec m (fun s => val zero (call (uop (with_amp k s x)) true false psi)) (nth k x 0) y.
Proof.
  intros L. destruct (gen_deriv1_ok Rstar is0 is0_ok sched sched_ok R my_amp cos sin my_cos my_sin m Hm (uop x) unorb (S1 x) (S2 x L) true psi) as [ys [E [Ly H]]].
  exists ys. split; [exact E|]. split; [rewrite Ly; cbn; now rewrite ugens|]. intros k Hk.
  assert (Lx : length x = length gens) by now rewrite glen.
  destruct (with_amp_split gens k x 0 Lx ltac:(rewrite glen; exact Hk)) as [g [N [Ig _]]].
  destruct (H k (g, nth k x 0)) as [y [Y1 Y2]]; [now rewrite facs_eq|]. exists y. split; [exact Y1|].
  unfold dprod in Y2. rewrite facs_eq in Y2. pose proof usane as us. rewrite Forall_forall in us. pose proof (us g Ig) as Hg.
  assert (Hf : Forall (fun y : gen * R => sane m (fst y)) (firstn k (combine gens x))) by (apply firstn_F, facs_sane).
  assert (Hs : Forall (fun y : gen * R => sane m (fst y)) (skipn (S k) (combine gens x))) by (apply skipn_F, facs_sane).
  eapply dvec_veq; [| |exact (dvec_one m _ _ g (fun s => s) 1 (nth k x 0) psi Hf Hs Hg (derivable_pt_lim_id _))]; cbv beta.
  - intros s. destruct (call_spec (with_amp k s x) false psi) as [r [-> V]]; [now rewrite with_amp_len|]. cbn [val].
    destruct (with_amp_split gens k x s Lx ltac:(rewrite glen; exact Hk)) as [g' [N' [_ C]]]. rewrite C in V. assert (g' = g) by congruence. now subst g'.
  - eapply veq_trans; [exact Y2|]. intros e _. generalize (prodR m (skipn (S k) (combine gens x)) (dfac Rstar R cos sin m false (g, nth k x 0) (prodR m (firstn k (combine gens x)) psi)) e).
    intros q. exact (one_l q).
Qed.
(** _full=False: the same for the product that stops with that generator *)
Theorem C58_deriv_prefix x psi : length x = length aa -> exists ys, gen_deriv1 (uop x) true psi false false = (ys, None) /\ length ys = length aa /\
  forall k, (k < length aa)%nat -> exists y, nth_error ys k = Some y /\
    dvec m (fun s => val zero (call (mkU R m (firstn (S k) gens) (firstn (S k) (with_amp k s x))) true false psi)) (nth k x 0) y.
Proof.
  intros L. destruct (gen_deriv1_ok Rstar is0 is0_ok sched sched_ok R my_amp cos sin my_cos my_sin m Hm (uop x) unorb (S1 x) (S2 x L) false psi) as [ys [E [Ly H]]].
  exists ys. split; [exact E|]. split; [rewrite Ly; cbn; now rewrite ugens|]. intros k Hk.
  assert (Lx : length x = length gens) by now rewrite glen.
  destruct (with_amp_split gens k x 0 Lx ltac:(rewrite glen; exact Hk)) as [g [N [Ig _]]].
  destruct (H k (g, nth k x 0)) as [y [Y1 Y2]]; [now rewrite facs_eq|]. exists y. split; [exact Y1|].
  unfold dprod_part in Y2. rewrite facs_eq in Y2. pose proof usane as us. rewrite Forall_forall in us. pose proof (us g Ig) as Hg.
  assert (Hf : Forall (fun y : gen * R => sane m (fst y)) (firstn k (combine gens x))) by (apply firstn_F, facs_sane).
  eapply dvec_veq; [| |exact (dvec_one m _ [] g (fun s => s) 1 (nth k x 0) psi Hf (Forall_nil _) Hg (derivable_pt_lim_id _))]; cbv beta.
  - intros s. set (u' := mkU R m (firstn (S k) gens) (firstn (S k) (with_amp k s x))).
    assert (A1 : Forall (sane m) (u_gens R u')) by (apply firstn_F, usane).
    assert (A2 : length (u_amps R u') = length (u_gens R u')) by (cbn [u' u_amps u_gens]; rewrite !firstn_length, with_amp_len; now rewrite Lx).
    destruct (call_ok Rstar is0 is0_ok sched sched_ok R my_amp cos sin my_cos my_sin m Hm u' eq_refl A1 A2 false psi psi (veq_refl _ _ _)) as [r [-> V]]. cbn [val].
    unfold facs in V. cbn [u' u_gens u_amps] in V. rewrite <- combine_firstn in V.
    destruct (with_amp_split gens k x s Lx ltac:(rewrite glen; exact Hk)) as [g' [N' [_ C]]]. rewrite C in V. assert (g' = g) by congruence. subst g'.
    assert (Lk : length (firstn k (combine gens x)) = k) by (rewrite firstn_length, combine_length; lia).
    rewrite firstn_app, Lk in V. replace (S k - k)%nat with 1%nat in V by lia. rewrite (firstn_all2 (n := S k) (firstn k (combine gens x))) in V by (rewrite Lk; lia). exact V.
  - eapply veq_trans; [exact Y2|]. intros e _. change (prodR m [] (dfac Rstar R cos sin m false (g, nth k x 0) (prodR m (firstn k (combine gens x)) psi))) with (dfac Rstar R cos sin m false (g, nth k x 0) (prodR m (firstn k (combine gens x)) psi)).
    generalize (dfac Rstar R cos sin m false (g, nth k x 0) (prodR m (firstn k (combine gens x)) psi) e). intros q. exact (one_l q).
Qed.
(** get_deriv1 with transpose=True, one generator at a time *)
Theorem C58_deriv_transposed x psi k : length x = length aa -> (k < length aa)%nat ->
  exists y c, get_deriv1 (uop x) true psi k true None true = Ok (y, c) /\
    dvec m (fun s => val zero (call (uop (with_amp k s x)) true true psi)) (nth k x 0) y.
Proof.
  intros L Hk. assert (Lx : length x = length gens) by now rewrite glen.
  destruct (with_amp_split gens k x 0 Lx ltac:(rewrite glen; exact Hk)) as [g [N [Ig _]]].
  destruct (get_deriv1_T Rstar is0 is0_ok sched sched_ok R my_amp cos sin my_cos my_sin m Hm (uop x) unorb (S1 x) (S2 x L) k (g, nth k x 0) true psi) as [y [c [E V]]]; [now rewrite facs_eq|].
  exists y, (Some c). split; [exact E|]. specialize (V eq_refl). unfold dprodT in V. rewrite facs_eq in V.
  pose proof usane as us. rewrite Forall_forall in us. pose proof (us g Ig) as Hg.
  assert (Hf : Forall (fun y : gen * R => sane m (fst y)) (map neg (rev (firstn k (combine gens x))))) by (apply neg_sane, Forall_rev, firstn_F, facs_sane).
  assert (Hs : Forall (fun y : gen * R => sane m (fst y)) (map neg (rev (skipn (S k) (combine gens x))))) by (apply neg_sane, Forall_rev, skipn_F, facs_sane).
  assert (Hd : derivable_pt_lim (fun s => - s) (nth k x 0) (-1)) by (apply (derivable_pt_lim_opp (fun s => s)), derivable_pt_lim_id).
  eapply dvec_veq; [| |exact (dvec_one m _ _ g (fun s => - s) (-1) (nth k x 0) psi Hs Hf Hg Hd)]; cbv beta.
  - intros s. destruct (call_spec (with_amp k s x) true psi) as [r [-> W]]; [now rewrite with_amp_len|]. cbn [val].
    destruct (with_amp_split gens k x s Lx ltac:(rewrite glen; exact Hk)) as [g' [N' [_ C]]]. rewrite C in W. assert (g' = g) by congruence. subst g'.
    rewrite rev_app_distr in W. cbn [rev] in W. rewrite <- app_assoc in W. cbn [app] in W. rewrite prod_true, map_app in W. exact W.
  - eapply veq_trans; [exact V|]. rewrite !prod_true.
    pose proof (prod_lin m _ Hf (-1) 0 (dfac Rstar R cos sin m false (g, - nth k x 0) (prodR m (map neg (rev (skipn (S k) (combine gens x)))) psi)) zero) as PL.
    intros e _. eapply eq_trans; [|eapply eq_trans; [exact (PL e)|]].
    + apply prod_val; [exact Hf|]. intros d. unfold dfac. cbn [fst snd]. rewrite cos_neg, sin_neg.
      set (G1 := FockSpec.gen Rstar m (fst g) (snd g) _ d). set (G2 := FockSpec.gen Rstar m (fst g) (snd g) (FockSpec.gen Rstar m (fst g) (snd g) _) d).
      exact (sgn_l (cos (nth k x 0)) (sin (nth k x 0)) G1 G2).
    + generalize (prodR m (map neg (rev (firstn k (combine gens x)))) (dfac Rstar R cos sin m false (g, - nth k x 0) (prodR m (map neg (rev (skipn (S k) (combine gens x)))) psi)) e) (prodR m (map neg (rev (firstn k (combine gens x)))) zero e).
      intros p q. rr.
Qed.
(** gen_deriv1 with transpose=True: never gets past the first vector *)
Theorem C58_transpose_raises x psi full : length x = length aa -> (2 <= length aa)%nat ->
  exists y, gen_deriv1 (uop x) true psi true full = ([y], Some RuntimeError).
Proof.
  intros L H2. unfold UccModel.gen_deriv1. cbv zeta. cbn [u_gens set_amps]. rewrite ugens, glen.
  destruct (length aa) as [|[|n]] eqn:La; try lia. rewrite seq_S, rev_app_distr, seq_S, rev_app_distr. cbn [rev app]. rewrite !Nat.add_0_l.
  assert (Lx : length x = length gens) by (rewrite glen; lia).
  destruct (with_amp_split gens (S n) x 0 Lx ltac:(rewrite glen; lia)) as [g [N _]].
  destruct (get_deriv1_T Rstar is0 is0_ok sched sched_ok R my_amp cos sin my_cos my_sin m Hm (uop x) unorb (S1 x) (S2 x ltac:(lia)) (S n) (g, nth (S n) x 0) full psi) as [y [c [E _]]]; [now rewrite facs_eq|].
  exists y. cbn [gd_loop]. fold (set_amps R u0 x). 
  match type of E with ?l = _ => match goal with |- context [match ?l' with Ok _ => _ | Raise _ => _ end] => change l' with l; rewrite E end end.
  unfold UccModel.get_deriv1 at 1. rewrite (proj2 (Nat.ltb_lt n (S n)) (Nat.lt_succ_diag_r n)). reflexivity.
Qed.

(** ** the Hamiltonian of m/2 spatial orbitals *)
Section Energy.
Variables (norb : nat) (h0 : R) (terms : list (nat -> R)).
Hypothesis Hn : m = (2 * norb)%nat.
Definition hop (psi : rvec) : rvec := val zero (op1h_spinsym Rstar is0 sched (fun n => / INR n) norb h0 terms psi).
Theorem C58_hamiltonian psi : exists r, op1h_spinsym Rstar is0 sched (fun n => / INR n) norb h0 terms psi = Ok r /\
  forall e, valid m e -> r e = h0 * psi e +
    bsum (K := Rstar) (combine (seq 1 (length terms)) terms) (fun nh => / INR (fact (fst nh)) * nbody Rstar norb (fst nh) (snd nh) psi e).
Proof.
  destruct (op1h_ok Rstar (fun n => / INR n) is0 is0_ok sched sched_ok norb h0 terms psi ltac:(lia)) as [r [E V]]. exists r. split; [exact E|].
  intros e He. rewrite (V e) by (now rewrite <- Hn). unfold ham. cbv [Rstar sadd smul]. fold Rstar. f_equal. apply (bsum_ext Rstar). intros nh _. now rewrite invfact_fact.
Qed.
Lemma hop_ham psi : veq m (hop psi) (ham Rstar (fun n => / INR n) norb h0 terms psi).
Proof. destruct (op1h_ok Rstar (fun n => / INR n) is0 is0_ok sched sched_ok norb h0 terms psi ltac:(lia)) as [r [E V]]. unfold hop. rewrite E. cbn [val]. now rewrite Hn. Qed.
Theorem C58_linear : linear m hop.
Proof.
  split.
  - intros u v E. eapply veq_trans; [apply hop_ham|]. eapply veq_trans; [|apply veq_sym, hop_ham]. rewrite Hn in *. now apply ham_ext.
  - intros x y u v. eapply veq_trans; [apply hop_ham|]. intros e He. rewrite (hop_ham u e He), (hop_ham v e He). apply (ham_lin Rstar).
Qed.
Theorem C58_hermitian : symmetric m hop.
Proof.
  intros u v. rewrite (inner_ext Rstar m _ _ v v (hop_ham u) (veq_refl _ _ _)). rewrite (inner_ext Rstar m u u _ _ (veq_refl _ _ _) (hop_ham v)).
  rewrite Hn. now apply (ham_adj Rstar).
Qed.

(** ** energy and gradient *)
Variable psi0 : rvec.
Theorem C58_energy x : length x = length aa -> exists e jac r, obj_fun u0 hop psi0 x = Ok (e, jac) /\ length jac = length aa /\
  call (uop x) true false psi0 = Ok r /\ e = inner m r (hop r).
Proof.
  intros L. destruct (obj_fun_ok Rstar is0 is0_ok sched sched_ok R my_amp cos sin my_cos my_sin pythR (fun _ => eq_refl) (fun _ => eq_refl) m Hm u0 hop psi0 x unorb) as [e [jac [E [E1 [E2 _]]]]].
  - now rewrite ugens.
  - now rewrite ugens, glen.
  - apply C58_linear.
  - destruct (call_spec x false psi0 L) as [r [Er V]]. exists e, jac, r. rewrite facs_eq in E1. rewrite ugens, glen in E2. repeat split; try assumption. rewrite E1.
    symmetry. apply inner_ext; [exact V|]. now apply C58_linear.
Qed.
Definition energy (x : list R) : R := fst (val (0, []) (obj_fun u0 hop psi0 x)).
(** amplitudes moving along any differentiable path: the energy changes by the scalar product of
    their velocities with the returned array *)
Theorem C58_gradient ths ds t : length ths = length aa -> Forall2 (fun th d => derivable_pt_lim th t d) ths ds ->
  exists e jac, obj_fun u0 hop psi0 (map (fun th => th t) ths) = Ok (e, jac) /\ length jac = length aa /\
    derivable_pt_lim (fun s => energy (map (fun th => th s) ths)) t (dotl ds jac).
Proof.
  intros L Hd.
  assert (O : forall s, exists e jac, obj_fun u0 hop psi0 (map (fun th => th s) ths) = Ok (e, jac) /\
     e = inner m (prodR m (at_ (combine gens ths) s) psi0) (hop (prodR m (at_ (combine gens ths) s) psi0)) /\ length jac = length aa /\
     forall k y, nth_error (at_ (combine gens ths) s) k = Some y -> nth_error jac k = Some (2 * inner m (prodR m (skipn (S k) (at_ (combine gens ths) s)) (dfac Rstar R cos sin m false y (prodR m (firstn k (at_ (combine gens ths) s)) psi0))) (hop (prodR m (at_ (combine gens ths) s) psi0)))).
  { intros s. assert (Ls : length (map (fun th : R -> R => th s) ths) = length (u_gens R u0)) by (rewrite map_length, ugens, glen; exact L).
    destruct (obj_fun_ok Rstar is0 is0_ok sched sched_ok R my_amp cos sin my_cos my_sin pythR (fun _ => eq_refl) (fun _ => eq_refl) m Hm u0 hop psi0 _ unorb ltac:(now rewrite ugens) Ls (proj1 C58_linear)) as [e [jac [E [E1 [E2 E3]]]]].
    exists e, jac. split; [exact E|]. unfold dprod in E3. rewrite facs_eq in E1, E3. rewrite ugens, glen in E2.
    assert (A : combine gens (map (fun th : R -> R => th s) ths) = at_ (combine gens ths) s).
    { unfold at_. clear. revert ths. induction gens as [|g gs IH]; intros [|th ths]; cbn; try reflexivity. now rewrite IH. }
    rewrite A in E1, E3. split; [exact E1|]. split; [exact E2|exact E3]. }
  destruct (O t) as [e [jac [E [E1 [E2 E3]]]]]. exists e, jac. split; [exact E|]. split; [exact E2|].
  assert (Hl : Forall (fun x => sane m (fst x)) (combine gens ths)).
  { apply Forall_forall. intros [g th] H. apply in_combine_l in H. pose proof usane as us. rewrite Forall_forall in us. now apply us. }
  assert (Hd2 : Forall2 (fun x d => derivable_pt_lim (snd x) t d) (combine gens ths) ds).
  { assert (Lg : length gens = length ths) by now rewrite glen. clear - Hd Lg. revert Lg. generalize gens. induction Hd as [|th d ths ds H Hd IH]; intros [|g gs] Lg; try discriminate; cbn; constructor; [exact H|]. apply IH. now injection Lg. }
  apply deriv_ext with (fun s => inner m (prodR m (at_ (combine gens ths) s) psi0) (hop (prodR m (at_ (combine gens ths) s) psi0))).
  { intros s. destruct (O s) as [e' [jac' [E' [E1' _]]]]. unfold energy. rewrite E'. cbn [val fst]. now rewrite E1'. }
  eapply deriv_val; [exact (energy_deriv m (combine gens ths) ds t psi0 hop Hl Hd2 C58_linear C58_hermitian)|].
  assert (La : length (at_ (combine gens ths) t) = length aa) by (unfold at_; pose proof glen; rewrite map_length, combine_length, glen; lia).
  apply tangent_dot; [now apply at_ok| | |exact E3].
  - rewrite La. apply F2_len in Hd. lia.
  - now rewrite La.
Qed.
(** with unique amplitudes spread over generators: the packed array is the gradient in them *)
Theorem C58_gradient_uniq symtab x0 ths ds t : length x0 = length aa -> length ths = length symtab ->
  NoDup (concat symtab) -> (forall k, In k (concat symtab) -> (k < length aa)%nat) ->
  Forall2 (fun th d => derivable_pt_lim th t d) ths ds ->
  exists e g, obj_uniq symtab (uop x0) hop psi0 (map (fun th => th t) ths) = Ok (e, g) /\ length g = length symtab /\
    derivable_pt_lim (fun s => fst (val (0, []) (obj_uniq symtab (uop x0) hop psi0 (map (fun th => th s) ths)))) t (dotl ds g).
Proof.
  intros L0 Lt Hnd Hr Hd. 
  set (all := set_uniq (R -> R) symtab ths (map (fun c => fun _ : R => c) x0)).
  assert (A : forall s, set_uniq R symtab (map (fun th => th s) ths) x0 = map (fun th => th s) all).
  { intros s. unfold all. rewrite (uniq_map (fun th : R -> R => th s)). f_equal. rewrite map_map. symmetry. apply map_id. }
  assert (La : length all = length aa) by (unfold all; now rewrite uniq_len, map_length).
  assert (Hall : Forall2 (fun th d => derivable_pt_lim th t d) all (set_uniq R symtab ds (repeat 0 (length aa)))).
  { unfold all. apply uniq_F2; [exact Hd|]. rewrite <- L0. clear. induction x0 as [|c x0 IH]; cbn; constructor; [apply derivable_pt_lim_const|exact IH]. }
  destruct (C58_gradient all _ t La Hall) as [e [jac [E [Lj D]]]].
  assert (U : forall s e' jac', obj_fun u0 hop psi0 (map (fun th => th s) all) = Ok (e', jac') -> length jac' = length aa ->
     obj_uniq symtab (uop x0) hop psi0 (map (fun th => th s) ths) = Ok (e', map (fun row => bsum (K := Rstar) row (fun k => nth k jac' 0)) symtab)).
  { intros s e' jac' E' Lj'. unfold UccModel.obj_uniq. cbn [u_amps set_amps u_gens]. rewrite A.
    change (obj_fun (uop x0) hop psi0 (map (fun th : R -> R => th s) all)) with (obj_fun u0 hop psi0 (map (fun th : R -> R => th s) all)). rewrite E'. cbn [bind fst snd].
    unfold rule_pack. rewrite ugens, glen, Lj', Nat.eqb_refl. reflexivity. }
  exists e. eexists. split; [exact (U t e jac E Lj)|]. split; [apply map_length|].
  apply deriv_ext with (fun s => energy (map (fun th => th s) all)).
  - intros s. destruct (C58_energy (map (fun th => th s) all)) as [e' [jac' [r [E' [Lj' _]]]]]; [now rewrite map_length|]. rewrite (U s e' jac' E' Lj'). unfold energy. now rewrite E'.
  - eapply deriv_val; [exact D|]. rewrite dotl_uniq.
    + rewrite <- Lj. rewrite dotl_zeros. apply Rplus_0_l.
    + exact Hnd.
    + rewrite <- (F2_len _ _ _ Hd). exact Lt.
    + rewrite repeat_length. symmetry. exact Lj.
    + intros k Hk. rewrite repeat_length. split; [now apply Hr|]. apply nth_repeat.
Qed.
End Energy.
End Operator.
End C58.

(** ** findings and examples: angles given by cosine and sine in the rationals *)
Module Ex.
Import QArith Qcanon.
Local Open Scope Qc_scope.
Definition ang := (Qc * Qc)%type.
Definition my (tr d : bool) (t : ang) : ang :=
  let t := if d then (- snd t, fst t) else t in if tr then (fst t, - snd t) else t.
Definition isz (x : Qstar) : bool := if Qc_eq_dec x 0 then true else false.
Definition sid (l : list N) : list N := l.
Definition q (a : Z) (b : positive) : Qc := Q2Qc (a # b).
Definition t0 : ang := (1, 0).
Definition t34 : ang := (q 3 5, q 4 5).
Definition det (d : N) : N -> Qstar := fun e => if (e =? d)%N then 1 else 0.
Definition dump (m : nat) (r : res (N -> Qstar)) : list (N * Q) :=
  match r with Ok v => map (fun x : N * Qc => (fst x, this (snd x))) (filter (fun x : N * Qc => negb (isz (snd x))) (map (fun d => (d, v d)) (nrange (bit m)))) | Raise _ => [] end.
Definition callQ := call Qstar isz sid ang my fst snd.
Definition rec (n : nat) : Qstar := Q2Qc (1 # Pos.of_nat n).
Definition show (r : res (Qstar * list Qstar)) : res (Q * list Q) := do r <- r ;; Ok (this (fst r), map this (snd r)).

(** singles 0 -> 1 and 2 -> 3, then the double 0,2 -> 1,3 *)
Definition u3 : res (uop ang) := init ang t0 4 [[1]; [3]; [1; 3]]%nat [[0]; [2]; [0; 2]]%nat.
Example init_ex : u3 = Ok (mkU ang 4 [([1], [0]); ([3], [2]); ([1; 3], [0; 2])]%nat [t0; t0; t0]).
Proof. reflexivity. Qed.
Example init_dup_ex : init ang t0 4 [[1; 3]; [2; 0]]%nat [[0; 2]; [3; 1]]%nat = Raise AssertionError.
Proof. reflexivity. Qed.
Example init_same_ex : init ang t0 4 [[1; 3]]%nat [[3; 1]]%nat = Raise AssertionError.
Proof. reflexivity. Qed.
Definition u2 (x : list ang) : uop ang := mkU ang 4 [([1], [0]); ([3], [2])]%nat x.
(** |0101> goes to (3/5 + 4/5 0->1) (3/5 + 4/5 2->3) |0101> *)
Example call_ex : dump 4 (callQ (u2 [t34; t34]) true false (det 5)) = [(5%N, 9 # 25); (6%N, 12 # 25); (9%N, 12 # 25); (10%N, 16 # 25)]%Q.
Proof. vm_compute. reflexivity. Qed.
Example call_back_ex : dump 4 (do r <- callQ (u2 [t34; t34]) true false (det 5) ;; callQ (u2 [t34; t34]) true true r) = [(5%N, 1 # 1)]%Q.
Proof. vm_compute. reflexivity. Qed.
(** energy of a rotated determinant, h = ((1, 1), (1, 2)): c^2 + 2 s^2 + 2 c s, with its derivative *)
Definition h1 (k : nat) : Qstar := if (k =? 2)%nat then q 2 1 else q 1 1.
Definition hopQ (psi : N -> Qstar) : N -> Qstar := val (fun _ => 0) (op1h_spinsym Qstar isz sid rec 2 0 [h1] psi).
Example obj_ex : show (obj_fun Qstar isz sid ang my fst snd (u2 [t0; t0]) hopQ (det 1) [t34; t0]) = Ok (13 # 5, [2 # 5; 0])%Q.
Proof. vm_compute. reflexivity. Qed.
(** both spins share one amplitude *)
Example obj_uniq_ex : show (obj_uniq Qstar isz sid ang my fst snd [[0; 1]]%nat (u2 [t0; t0]) hopQ (det 5) [t34]) = Ok (26 # 5, [4 # 5])%Q.
Proof. vm_compute. reflexivity. Qed.
Example deriv_ex : map (fun y => dump 4 (Ok y)) (fst (gen_deriv1 Qstar isz sid ang my fst snd (u2 [t34; t34]) true (det 5) false true)) =
  [[(5%N, (-12) # 25); (6%N, 9 # 25); (9%N, (-16) # 25); (10%N, 12 # 25)]; [(5%N, (-12) # 25); (6%N, (-16) # 25); (9%N, 9 # 25); (10%N, 12 # 25 )]]%Q.
Proof. vm_compute. reflexivity. Qed.
End Ex.

(** Finding: gen_deriv1 (transpose=True) cannot be used with more than one generator: from the second
    on, the generator it asks for lies before the one it says the product was left at. *)
Theorem C58_transpose_refuted : exists aa ii u psi, init Ex.ang Ex.t0 4 aa ii = Ok u /\
  snd (gen_deriv1 Qstar Ex.isz Ex.sid Ex.ang Ex.my fst snd u true psi true true) = Some RuntimeError.
Proof. exists [[1]; [3]]%nat, [[0]; [2]]%nat, (Ex.u2 [Ex.t0; Ex.t0]), (Ex.det 5). split; vm_compute; reflexivity. Qed.
(** Finding: given an array that is not float64, the operator works on a copy and returns its argument
    unchanged. *)
Theorem C58_dtype_refuted : exists aa ii u x psi r, init Ex.ang Ex.t0 4 aa ii = Ok u /\
  Ex.callQ (set_amps Ex.ang u x) false false psi = Ok psi /\
  Ex.callQ (set_amps Ex.ang u x) true false psi = Ok r /\ r 6%N <> psi 6%N.
Proof.
  exists [[1]; [3]]%nat, [[0]; [2]]%nat, (Ex.u2 [Ex.t0; Ex.t0]), [Ex.t34; Ex.t34], (Ex.det 5).
  assert (E : exists r, Ex.callQ (Ex.u2 [Ex.t34; Ex.t34]) true false (Ex.det 5) = Ok r /\ r 6%N = Ex.q 12 25).
  { eexists. split; [reflexivity|]. vm_compute. reflexivity. }
  destruct E as [r [E1 E2]]. exists r. split; [vm_compute; reflexivity|]. split; [vm_compute; reflexivity|]. split; [exact E1|]. rewrite E2. vm_compute. discriminate.
Qed.

Print Assumptions C58_init. Print Assumptions C58_call. Print Assumptions C58_call_unique. Print Assumptions C58_inverse.
Print Assumptions C58_adjoint. Print Assumptions C58_isometry. Print Assumptions C58_deriv. Print Assumptions C58_deriv_prefix.
Print Assumptions C58_deriv_transposed. Print Assumptions C58_transpose_raises. Print Assumptions C58_hamiltonian. Print Assumptions C58_linear.
Print Assumptions C58_hermitian. Print Assumptions C58_energy. Print Assumptions C58_gradient. Print Assumptions C58_gradient_uniq.
Print Assumptions C58_transpose_refuted. Print Assumptions C58_dtype_refuted.
