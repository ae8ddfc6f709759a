(** The walks of mdown and mup. *)
From Coq Require Import List Bool Arith NArith ZArith Reals Lia Lra.
From Verif Require Import Base Star FockSpec FockFacts FockOps SpinRot DetModel DetFacts HalfSpec HalfFacts LsisUpdModel SmultSpec SmultAlg SmultComm LadderSpec LadderModel LadderStr LadderFock LadderAng.
Import ListNotations.
Local Open Scope R_scope.

Definition shaped (n : nat) (ne : nat * nat) (c : arr2) : Prop := a_r c = num_strings n (fst ne) /\ a_c c = num_strings n (snd ne).
Definition norm_lad (raise : bool) : Z -> nat * nat -> res R := if raise then norm_sup else norm_sdown.
Definition step (raise : bool) (n : nat) (smult : Z) (ne : nat * nat) (c : arr2) : res arr2 := do c <- contract_sladder c n ne raise ;; do x <- norm_lad raise smult ne ;; div2 c x.
(** one electron more of spin up, one less of spin down *)
Definition upne (ne : nat * nat) : nat * nat := (fst ne + 1, snd ne - 1)%nat.

Lemma ci_div n ne (c : nat -> nat -> R) y e : ci_state n ne (fun i j => c i j / y) e = ci_state n ne c e / y.
Proof. unfold ci_state. cbv zeta. destruct (_ && _)%bool; rewrite ?sg_R; unfold Rdiv; rring. Qed.
Lemma norm_eq raise S ne : 0 < sq_lad raise S (Mz ne) -> norm_lad raise (S + 1) ne = Ok (sqrt (sq_lad raise S (Mz ne))).
Proof.
  intros H. assert (E : forall x : Z, IZR x / 4 = sq_lad raise S (Mz ne) -> half_sqrt x = Ok (sqrt (sq_lad raise S (Mz ne)))).
  { intros x Hx. unfold half_sqrt. destruct (Z.ltb_spec x 0) as [L|L]; [apply IZR_lt in L; lra|]. rewrite Hx. reflexivity. }
  unfold norm_lad. destruct raise; unfold norm_sup, norm_sdown; cbv zeta; apply E; unfold sq_lad, sq_up, sq_dn, hf; fold (Mz ne); rewrite mult_IZR, ?plus_IZR, ?minus_IZR, ?plus_IZR; lra.
Qed.
Lemma step_ok raise n S ne c : shaped n ne c -> vacuum n ne raise = false -> 0 < sq_lad raise S (Mz ne) ->
  exists c1, step raise n (S + 1) ne c = Ok c1 /\ shaped n (ne1 ne raise) c1 /\ forall e, ci_state n (ne1 ne raise) (a_el c1) e = nlad n raise S (Mz ne) (ci_state n ne (a_el c)) e.
Proof.
  intros [H1 H2] Hv Hq. destruct (contract_spec c n ne raise H1 H2) as (c1 & E & H). rewrite Hv in H. destruct H as (R1 & R2 & _).
  unfold step. rewrite E, norm_eq by exact Hq. cbn [bind]. unfold div2. destruct (Req_EM_T _ 0) as [Z|Z]; [exfalso; pose proof (sqrt_lt_R0 _ Hq); lra|].
  eexists. split; [reflexivity|]. split; [split; [exact R1|exact R2]|]. intros e. cbn [a_el]. rewrite ci_div, (contract_fock c n ne raise c1 H1 H2 E Hv). reflexivity.
Qed.

(** ** veq *)
Lemma pure_veq n ne S c c' : veq Rs (2 * n) (ci_state n ne c) (ci_state n ne c') -> spin_pure n S (ci_state n ne c) -> spin_pure n S (ci_state n ne c').
Proof.
  intros E H. apply (pure_lad n true ne S _ (ci_carries n ne c')). apply (pure_lad n true ne S _ (ci_carries n ne c)) in H. cbn [negb] in *. intros e He.
  rewrite <- (lad_veq n false _ _ (lad_veq n true _ _ E) e He), (H e He), (E e He). reflexivity.
Qed.
Lemma nlad_veq n raise S M (u v : vec Rs) : veq Rs (2 * n) u v -> veq Rs (2 * n) (nlad n raise S M u) (nlad n raise S M v).
Proof. intros H e He. unfold nlad. rewrite (lad_veq n raise _ _ H e He). reflexivity. Qed.
Lemma sum_sq_0 {X} (l : list X) (f : X -> R) : bsum (K := Rs) l (fun d => f d * f d) = 0 -> forall d, In d l -> f d = 0.
Proof.
  assert (P : forall l : list X, 0 <= bsum (K := Rs) l (fun d => f d * f d)) by (induction l0 as [|x r IH]; [cbn; lra|]; rewrite RS_cons; pose proof (Rle_0_sqr (f x)) as Q; unfold Rsqr in Q; lra).
  induction l as [|x r IH]; intros H d Hd; [contradiction|]. rewrite RS_cons in H. pose proof (P r). pose proof (Rle_0_sqr (f x)) as Q. unfold Rsqr in Q. destruct Hd as [->|Hd].
  - apply Rsqr_0_uniq. unfold Rsqr. lra.
  - apply IH; [lra|exact Hd].
Qed.
Lemma inner_0 n (v : vec Rs) : inner Rs (2 * n) v v = 0 -> veq Rs (2 * n) v (fun _ => 0).
Proof.
  intros H d Hd. apply (sum_sq_0 (dets (2 * n)) v H). unfold dets. rewrite <- (N2Nat.id d). apply in_map. apply in_seq.
  pose proof (N2Nat.inj_pow 2 (N.of_nat (2 * n))) as E. rewrite Nat2N.id in E. change (N.to_nat 2) with 2%nat in E. lia.
Qed.
Lemma end_0 n raise ne S c : spin_pure n S (ci_state n ne c) -> sq_lad raise S (Mz ne) = 0 -> veq Rs (2 * n) (lad n raise (ci_state n ne c)) (fun _ => 0).
Proof.
  intros H Hq. apply inner_0. rewrite lad_adj. apply (pure_lad n raise ne S _ (ci_carries n ne c)) in H. rewrite Hq in H.
  rewrite (inner_ext Rs (2 * n) _ (fun e => 0 * ci_state n ne c e) (ci_state n ne c) (ci_state n ne c) H) by (intros d _; reflexivity). rewrite (inner_scale_l n). rring.
Qed.
Lemma nonzero_room n raise ne S c : spin_pure n S (ci_state n ne c) -> 0 < sq_lad raise S (Mz ne) -> ~ veq Rs (2 * n) (ci_state n ne c) (fun _ => 0) -> vacuum n ne raise = false.
Proof.
  intros H Hq Hn. destruct (vacuum n ne raise) eqn:Ev; [|reflexivity]. exfalso. apply Hn. intros e He. apply (pure_lad n raise ne S _ (ci_carries n ne c)) in H. specialize (H e He).
  rewrite (lad_v n (negb raise) _ (fun d => 0 * ci_state n ne c d)) in H by (intros d; rewrite (vacuum_fock n ne raise c d Ev); rring). rewrite lad_mul in H.
  match type of H with ?a = ?b => change (@eq R a b) in H end. rewrite Rmult_0_l in H. symmetry in H. apply Rmult_integral in H as [H|H]; [lra|exact H].
Qed.

(** ** steps *)
Lemma foldR_map {A} (f : A -> nat -> res A) g l : forall x, foldR f (map g l) x = foldR (fun a j => f a (g j)) l x.
Proof. induction l as [|j l IH]; intros x; [reflexivity|]. cbn [map foldR]. destruct (f x (g j)); [|reflexivity]. cbn [bind]. apply IH. Qed.
Lemma foldR_app {A} (f : A -> nat -> res A) l l' : forall x, foldR f (l ++ l') x = do y <- foldR f l x ;; foldR f l' y.
Proof. induction l as [|j l IH]; intros x; [reflexivity|]. cbn [app foldR]. destruct (f x j) as [a|]; [|reflexivity]. cbn [bind]. apply IH. Qed.
Lemma foldR_ext {A} (f g : A -> nat -> res A) l : (forall x j, In j l -> f x j = g x j) -> forall x, foldR f l x = foldR g l x.
Proof. induction l as [|j l IH]; intros H x; [reflexivity|]. cbn [foldR]. rewrite (H x j) by (now left). destruct (g x j); [|reflexivity]. cbn [bind]. apply IH. intros y i Hi. apply H. now right. Qed.
Lemma shifted_up ne j : (1 <= snd ne)%nat -> shifted ne (j + 1) = shifted (upne ne) j.
Proof.
  intros H. unfold shifted, upne. destruct ne as [a b]. cbn [fst snd] in *. destruct (Nat.leb_spec (j + 1) b), (Nat.leb_spec j (b - 1)); try lia; [|reflexivity]. f_equal. f_equal; lia.
Qed.
Lemma steps_up S ne k : (1 <= snd ne)%nat -> n_steps (S + 1) ne = Datatypes.S k -> n_steps (S + 1) (upne ne) = k.
Proof. unfold n_steps, upne. cbn [fst snd]. intros H E. rewrite Nat2Z.inj_add, Nat2Z.inj_sub by exact H.
  replace (S + 1 - 1 - (Z.of_nat (fst ne) + Z.of_nat 1 - (Z.of_nat (snd ne) - Z.of_nat 1)))%Z with (S + 1 - 1 - (Z.of_nat (fst ne) - Z.of_nat (snd ne)) + (-1) * 2)%Z by lia.
  rewrite Z.div_add by lia. lia.
Qed.
Lemma mup_S n S ne k c : (1 <= snd ne)%nat -> n_steps (S + 1) ne = Datatypes.S k -> mup1 n ne (S + 1) c = do c1 <- step true n (S + 1) ne c ;; mup1 n (upne ne) (S + 1) c1.
Proof.
  intros H E. unfold mup1. rewrite E, (steps_up S ne k H E). cbn [seq foldR]. unfold shifted at 1. cbn [Nat.leb bind]. rewrite Nat.add_0_r, Nat.sub_0_r, <- surjective_pairing.
  change (do c0 <- contract_sladder c n ne true ;; do x <- norm_sup (S + 1) ne ;; div2 c0 x) with (step true n (S + 1) ne c). destruct (step true n (S + 1) ne c) as [c1|]; [|reflexivity]. cbn [bind].
  rewrite <- seq_shift, foldR_map. apply foldR_ext. intros x j _. rewrite <- Nat.add_1_r, shifted_up by exact H. reflexivity.
Qed.
Lemma mdown_S n S ne k c : (1 <= snd ne)%nat -> n_steps (S + 1) ne = Datatypes.S k -> mdown1 n ne (S + 1) c = do c1 <- mdown1 n (upne ne) (S + 1) c ;; step false n (S + 1) (upne ne) c1.
Proof.
  intros H E. unfold mdown1. rewrite E, (steps_up S ne k H E). cbn [seq rev]. rewrite <- seq_shift, <- map_rev, foldR_app, foldR_map.
  rewrite (foldR_ext _ (fun ci j => do ne <- shifted (upne ne) j ;; do c <- contract_sladder ci n ne false ;; do x <- norm_sdown (S + 1) ne ;; div2 c x)).
  2: { intros x j _. rewrite <- Nat.add_1_r, shifted_up by exact H. reflexivity. }
  destruct (foldR _ (rev (seq 1 k)) c) as [c1|]; [|reflexivity]. cbn [bind foldR]. change 1%nat with (0 + 1)%nat at 1. rewrite shifted_up by exact H. unfold shifted. cbn [Nat.leb bind].
  rewrite Nat.add_0_r, Nat.sub_0_r, <- surjective_pairing. unfold step, norm_lad. destruct (do c <- contract_sladder c1 n (upne ne) false ;; do x <- norm_sdown (S + 1) (upne ne) ;; div2 c x); reflexivity.
Qed.
Lemma ne1_up n ne : vacuum n ne true = false -> ne1 ne true = upne ne.
Proof. reflexivity. Qed.
Lemma ne1_dn ne : (1 <= snd ne)%nat -> ne1 (upne ne) false = ne.
Proof. intros H. unfold ne1, upne, kt. destruct ne as [a b]. cbn [fst snd negb] in *. f_equal; lia. Qed.
Lemma vac_dn n ne : (1 <= snd ne)%nat -> (snd ne <= n)%nat -> vacuum n (upne ne) false = false.
Proof. intros H H'. unfold vacuum, upne. cbn [fst snd]. apply orb_false_iff. split; apply Nat.eqb_neq; lia. Qed.
Lemma Mz_up ne : (1 <= snd ne)%nat -> Mz (upne ne) = (Mz ne + 2)%Z.
Proof. intros H. unfold Mz, upne. cbn [fst snd]. lia. Qed.
Lemma sq_dn_pos S M : (- S < M <= S)%Z -> 0 < sq_lad false S M.
Proof. intros [H1 H2]. apply IZR_lt in H1. apply IZR_le in H2. rewrite opp_IZR in H1. unfold sq_lad, sq_dn, hf. apply Rmult_lt_0_compat; lra. Qed.
Lemma sq_up_pos S M : (- S <= M < S)%Z -> 0 < sq_lad true S M.
Proof. intros [H1 H2]. apply IZR_le in H1. apply IZR_lt in H2. rewrite opp_IZR in H1. unfold sq_lad, sq_up, hf. apply Rmult_lt_0_compat; lra. Qed.

(** ** up and back *)
Notation st n ne c := (ci_state n ne (a_el c)).
Definition topne (S : Z) (ne : nat * nat) : nat * nat := let k := n_steps (S + 1) ne in (fst ne + k, snd ne - k)%nat.
Lemma topne_up S ne k : (1 <= snd ne)%nat -> n_steps (S + 1) ne = Datatypes.S k -> topne S (upne ne) = topne S ne.
Proof. intros H E. unfold topne. rewrite E, (steps_up S ne k H E). unfold upne. cbn [fst snd]. f_equal; lia. Qed.
Lemma steps_member S ne : member S (Mz ne) -> (Mz ne + 2 * Z.of_nat (n_steps (S + 1) ne) = S)%Z.
Proof. intros [H [j Hj]]. unfold n_steps. fold (Mz ne). replace (S + 1 - 1 - Mz ne)%Z with (j * 2)%Z by lia. rewrite Z.div_mul by lia. lia. Qed.

Lemma mup_main n S : forall k ne c, n_steps (S + 1) ne = k -> member S (Mz ne) -> shaped n ne c -> spin_pure n S (st n ne c) -> ~ veq Rs (2 * n) (st n ne c) (fun _ => 0) -> (snd ne <= n)%nat ->
  (k <= snd ne)%nat /\ exists c', mup1 n ne (S + 1) c = Ok c' /\ shaped n (topne S ne) c' /\ spin_pure n S (st n (topne S ne) c') /\
    inner Rs (2 * n) (st n (topne S ne) c') (st n (topne S ne) c') = inner Rs (2 * n) (st n ne c) (st n ne c) /\
    exists c'', mdown1 n ne (S + 1) c' = Ok c'' /\ shaped n ne c'' /\ veq Rs (2 * n) (st n ne c'') (st n ne c).
Proof.
  induction k as [|k IH]; intros ne c Hk HM Hs Hp Hn Hnb.
  - split; [lia|]. exists c. assert (T : topne S ne = ne) by (unfold topne; rewrite Hk, Nat.add_0_r, Nat.sub_0_r, <- surjective_pairing; reflexivity). rewrite T.
    unfold mup1, mdown1. rewrite Hk. cbn [seq rev foldR]. repeat split; auto; try (apply Hs). exists c. repeat split; try (apply Hs).
  - pose proof (steps_member S ne HM) as HK. rewrite Hk in HK.
    assert (Hq : 0 < sq_lad true S (Mz ne)) by (apply sq_up_pos; destruct HM; lia).
    pose proof (nonzero_room n true ne S _ Hp Hq Hn) as Hv. pose proof Hv as Hv'. unfold vacuum in Hv'. apply orb_false_iff in Hv' as [V1 V2]. apply Nat.eqb_neq in V1, V2.
    assert (H1 : (1 <= snd ne)%nat) by lia.
    destruct (step_ok true n S ne c Hs Hv Hq) as (c1 & E1 & S1 & N1). rewrite (ne1_up n ne Hv) in S1, N1.
    destruct (nlad_step n true ne S (a_el c) (st n (upne ne) c1) Hv Hp Hq N1) as (P1 & I1 & B1).
    assert (HM1 : member S (Mz (upne ne))) by (rewrite Mz_up by exact H1; destruct HM as [HM [j Hj]]; split; [lia|exists (j - 1)%Z; lia]).
    assert (Hn1 : ~ veq Rs (2 * n) (st n (upne ne) c1) (fun _ => 0)).
    { intros Z. apply Hn. apply inner_0. rewrite <- I1. rewrite (inner_ext Rs (2 * n) _ (fun d => 0 * st n (upne ne) c1 d) _ (st n (upne ne) c1)); [rewrite (inner_scale_l n); rring| |intros d _; reflexivity].
      intros d Hd. rewrite (Z d Hd). rring. }
    destruct (IH (upne ne) c1 (steps_up S ne k H1 Hk) HM1 S1 P1 Hn1) as (Hk1 & c' & E' & S' & P' & I' & c2 & E2 & S2 & B2); [unfold upne; cbn [snd]; lia|].
    rewrite (topne_up S ne k H1 Hk) in *. split; [unfold upne in Hk1; cbn [snd] in Hk1; lia|].
    exists c'. rewrite (mup_S n S ne k c H1 Hk), E1. cbn [bind]. repeat split; auto; try (apply S'); [rewrite I'; exact I1|].
    rewrite (mdown_S n S ne k c' H1 Hk), E2. cbn [bind].
    assert (Hqd : 0 < sq_lad false S (Mz (upne ne))) by (rewrite Mz_up by exact H1; apply sq_dn_pos; destruct HM; lia).
    destruct (step_ok false n S (upne ne) c2 S2 (vac_dn n ne H1 Hnb) Hqd) as (c3 & E3 & S3 & N3). rewrite (ne1_dn ne H1) in S3, N3.
    exists c3. split; [exact E3|]. split; [exact S3|]. intros e He. rewrite N3, (nlad_veq n false S _ _ _ B2 e He). rewrite (Mz_up ne H1). apply B1. exact He.
Qed.

(** ** down and back *)
Lemma mdown_main n S : forall k ne c0, n_steps (S + 1) ne = k -> member S (Mz ne) -> (k <= snd ne)%nat -> (snd ne <= n)%nat -> (fst (topne S ne) <= n)%nat -> shaped n (topne S ne) c0 -> spin_pure n S (st n (topne S ne) c0) ->
  exists c, mdown1 n ne (S + 1) c0 = Ok c /\ shaped n ne c /\ spin_pure n S (st n ne c) /\ inner Rs (2 * n) (st n ne c) (st n ne c) = inner Rs (2 * n) (st n (topne S ne) c0) (st n (topne S ne) c0) /\
    (forall c2, shaped n ne c2 -> veq Rs (2 * n) (st n ne c2) (st n ne c) -> exists c3, mup1 n ne (S + 1) c2 = Ok c3 /\ shaped n (topne S ne) c3 /\ veq Rs (2 * n) (st n (topne S ne) c3) (st n (topne S ne) c0)).
Proof.
  induction k as [|k IH]; intros ne c0 Hk HM Hk' Hnb Hna Hs Hp.
  - assert (T : topne S ne = ne) by (unfold topne; rewrite Hk, Nat.add_0_r, Nat.sub_0_r, <- surjective_pairing; reflexivity). rewrite T in *.
    exists c0. unfold mdown1, mup1. rewrite Hk. cbn [seq rev foldR]. repeat split; auto; try (apply Hs). intros c2 S2 V2. exists c2. repeat split; auto; apply S2.
  - pose proof (steps_member S ne HM) as HK. rewrite Hk in HK. assert (H1 : (1 <= snd ne)%nat) by lia.
    assert (HM1 : member S (Mz (upne ne))) by (rewrite Mz_up by exact H1; destruct HM as [HM [j Hj]]; split; [lia|exists (j - 1)%Z; lia]).
    rewrite <- (topne_up S ne k H1 Hk) in *.
    destruct (IH (upne ne) c0 (steps_up S ne k H1 Hk) HM1) as (c1 & E1 & S1 & P1 & I1 & B1); auto; try (unfold upne; cbn [snd]; lia).
    assert (Hqd : 0 < sq_lad false S (Mz (upne ne))) by (rewrite Mz_up by exact H1; apply sq_dn_pos; destruct HM; lia).
    pose proof (vac_dn n ne H1 Hnb) as Hv.
    destruct (step_ok false n S (upne ne) c1 S1 Hv Hqd) as (c & E & Sc & N). rewrite (ne1_dn ne H1) in Sc, N.
    destruct (nlad_step n false (upne ne) S (a_el c1) (st n ne c) Hv P1 Hqd N) as (P & I & B).
    exists c. rewrite (mdown_S n S ne k c0 H1 Hk), E1. cbn [bind]. repeat split; auto; try (apply Sc); [rewrite I; exact I1|].
    intros c2 S2 V2. assert (Hqu : 0 < sq_lad true S (Mz ne)) by (apply sq_up_pos; destruct HM; lia).
    assert (Hvu : vacuum n ne true = false) by (unfold vacuum; apply orb_false_iff; split; apply Nat.eqb_neq; unfold topne, upne in Hna; cbn [fst] in Hna; lia).
    destruct (step_ok true n S ne c2 S2 Hvu Hqu) as (c3 & E3 & S3 & N3). rewrite (ne1_up n ne Hvu) in S3, N3.
    destruct (B1 c3 S3) as (c4 & E4 & S4 & V4).
    + intros e He. rewrite N3, (nlad_veq n true S _ _ _ V2 e He). specialize (B e He). rewrite Mz_up in B by exact H1. cbn [negb] in B. rewrite <- B. f_equal. lia.
    + exists c4. rewrite (mup_S n S ne k c2 H1 Hk), E3. cbn [bind]. repeat split; auto; apply S4.
Qed.
