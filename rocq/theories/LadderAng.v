(** One step down or up a multiplet. *)
From Coq Require Import List Bool Arith NArith ZArith Reals Lia Lra.
From Verif Require Import Base Star FockSpec FockFacts FockOps SpinRot DetModel DetFacts HalfSpec HalfFacts LsisUpdModel SmultSpec SmultAlg SmultComm LadderSpec LadderModel LadderStr LadderFock.
Import ListNotations.
Local Open Scope R_scope.

Section Ang.
  Variable n : nat.
  Notation m := (2 * n)%nat.
  Notation vc := (vec Rs).
  Notation Up := (Splus Rs n). Notation Dn := (Sminus Rs n).
  Definition carries (ne : nat * nat) (v : vc) : Prop := forall e, ((count (bits e 0 n) =? fst ne) && (count (bits e n n) =? snd ne))%nat = false -> v e = 0.
  Definition Mz (ne : nat * nat) : Z := (Z.of_nat (fst ne) - Z.of_nat (snd ne))%Z.
  Lemma ci_carries ne c : carries ne (ci_state n ne c).
  Proof. intros e H. unfold ci_state. cbv zeta. rewrite H. reflexivity. Qed.

  Lemma lad_v raise (u v : vc) e : (forall d, u d = v d) -> lad n raise u e = lad n raise v e.
  Proof. intros H. unfold lad. destruct raise; rewrite ?Sp_tr, ?Sm_tr; apply tr_v; exact H. Qed.
  Lemma lad_veq raise (u v : vc) : veq Rs m u v -> veq Rs m (lad n raise u) (lad n raise v).
  Proof.
    intros H d Hd. rewrite !lad_hop. apply (@bsum_ext Rs). intros p Hp. apply in_seq in Hp. unfold hop. destruct raise.
    - apply (cre_veq Rs n); [|exact Hd]. apply (ann_veq Rs n); [lia|exact H].
    - apply (cre_veq Rs n); [|exact Hd]. apply (ann_veq Rs n); [lia|exact H].
  Qed.
  Lemma lad_mul raise (x : R) (v : vc) e : lad n raise (fun d => x * v d) e = x * lad n raise v e.
  Proof.
    rewrite !lad_hop, RS_scale. apply (@bsum_ext Rs). intros p _. unfold hop. destruct raise.
    - refine (eq_trans _ (cre_mul Rs m p x (ann Rs m (p + n) v) e)). apply cre_v. intros d. exact (ann_mul Rs m (p + n) x v d).
    - refine (eq_trans _ (cre_mul Rs m (p + n) x (ann Rs m p v) e)). apply cre_v. intros d. exact (ann_mul Rs m p x v d).
  Qed.
  Lemma lad_adj raise (u v : vc) : inner Rs m u (lad n raise v) = inner Rs m (lad n (negb raise) u) v.
  Proof.
    unfold lad. destruct raise; cbn [negb].
    - rewrite (inner_ext Rs m u u _ (tr Rs n 0 n v)), tr_adj; [| lia | lia | intros d _; reflexivity | intros d _; apply Sp_tr].
      apply inner_ext; intros d _; [symmetry; apply Sm_tr|reflexivity].
    - rewrite (inner_ext Rs m u u _ (tr Rs n n 0 v)), tr_adj; [| lia | lia | intros d _; reflexivity | intros d _; apply Sm_tr].
      apply inner_ext; intros d _; [symmetry; apply Sp_tr|reflexivity].
  Qed.

  Lemma occ_op p (v : vc) e : cre Rs m p (ann Rs m p v) e = if bt e p then v e else 0.
  Proof.
    unfold cre, ann. destruct (bt e p) eqn:E; [|reflexivity]. rewrite bt_cb', Nat.eqb_refl, above_cb_same. replace (sb (cb e p) p) with e.
    - unfold sg. destruct (above m e p); cbn; [lra|reflexivity].
    - apply bt_ext. intros q. rewrite bt_sb', bt_cb'. destruct (Nat.eqb_spec q p) as [->|]; [exact E|reflexivity].
  Qed.
  Lemma num_count from (v : vc) e : num Rs n from v e = INR (count (bits e from n)) * v e.
  Proof.
    unfold num. rewrite count_bits. unfold LprodSpec.count. transitivity (bsum (K := Rs) (seq from n) (fun p => if bt e p then v e else 0)); [apply (@bsum_ext Rs); intros p _; apply occ_op|].
    induction (seq from n) as [|p l IH]; [cbn; lra|]. rewrite RS_cons, IH. cbn [filter]. destruct (bt e p); cbn [length]; rewrite ?S_INR; lra.
  Qed.
  Lemma num_tr from (v : vc) e : (from = 0 \/ from = n)%nat -> num Rs n from v e = tr Rs n from from v e.
  Proof.
    intros H. unfold num, tr. replace (seq from n) with (map (fun p => (p + from)%nat) (seq 0 n)); [apply (@bsum_map Rs)|].
    assert (G : forall k a, map (fun p => (p + from)%nat) (seq a k) = seq (a + from) k) by (induction k as [|k IH]; intros a; [reflexivity|]; cbn [seq map]; rewrite IH; reflexivity).
    exact (G n 0%nat).
  Qed.
  Lemma RS_minus {X} (l : list X) (f g : X -> R) : bsum (K := Rs) l (fun x => f x - g x) = bsum (K := Rs) l f - bsum (K := Rs) l g.
  Proof. induction l as [|q l IH]; [cbn; lra|]. rewrite !RS_cons, IH. lra. Qed.
  Lemma comm_num (v : vc) e : Up (Dn v) e = Dn (Up v) e + (num Rs n 0 v e - num Rs n n v e).
  Proof.
    rewrite !num_tr by auto.
    rewrite Sp_tr. rewrite (tr_v Rs n 0 n (Dn v) (tr Rs n n 0 v)) by (intros d; apply Sm_tr).
    rewrite Sm_tr. rewrite (tr_v Rs n n 0 (Up v) (tr Rs n 0 n v)) by (intros d; apply Sp_tr).
    transitivity (bsum (K := Rs) (seq 0 n) (fun q => tr Rs n 0 n (cre Rs m (q + n) (ann Rs m q v)) e)).
    { transitivity (bsum (K := Rs) (seq 0 n) (fun p => bsum (K := Rs) (seq 0 n) (fun q => cre Rs m (p + 0) (ann Rs m (p + n) (cre Rs m (q + n) (ann Rs m q v))) e))); [|apply (@bsum_swap Rs)].
      unfold tr at 1. apply (@bsum_ext Rs). intros p _. rewrite <- (cre_bsum Rs n (p + 0) (seq 0 n) (fun q => ann Rs m (p + n) (cre Rs m (q + n) (ann Rs m q v)))).
      apply cre_v. intros d. rewrite <- (ann_bsum Rs n (p + n) (seq 0 n) (fun q => cre Rs m (q + n) (ann Rs m q v))). apply ann_v. intros d'. unfold tr. apply (@bsum_ext Rs). intros q _. now rewrite Nat.add_0_r. }
    transitivity (bsum (K := Rs) (seq 0 n) (fun q => cre Rs m (q + n) (ann Rs m q (tr Rs n 0 n v)) e + (cre Rs m (q + 0) (ann Rs m (q + 0) v) e - cre Rs m (q + n) (ann Rs m (q + n) v) e))).
    - apply (@bsum_ext Rs). intros q Hq. apply in_seq in Hq. rewrite tr_cre by lia. rewrite hit by lia. rewrite (cre_v Rs m (q + n) _ (fun d => 1 * ann Rs m q (tr Rs n 0 n v) d + (-1) * ann Rs m (q + n) v d)).
      + rewrite (cre_l Rs m (q + n) 1 (-1)). rewrite !Nat.add_0_r. change (@eq R (1 * cre Rs m (q + n) (ann Rs m q (tr Rs n 0 n v)) e + -1 * cre Rs m (q + n) (ann Rs m (q + n) v) e + cre Rs m q (ann Rs m q v) e) (cre Rs m (q + n) (ann Rs m q (tr Rs n 0 n v)) e + (cre Rs m q (ann Rs m q v) e - cre Rs m (q + n) (ann Rs m (q + n) v) e))). ring.
      + intros d. rewrite tr_ann by lia. pose proof (hit Rs n (fun p => sopp (ann Rs m (p + n) v d)) 0 q ltac:(lia)) as Hh. cbv beta in Hh. rewrite (Nat.add_0_r q) in Hh. rewrite Hh. change (@eq R (ann Rs m q (tr Rs n 0 n v) d + - ann Rs m (q + n) v d) (1 * ann Rs m q (tr Rs n 0 n v) d + -1 * ann Rs m (q + n) v d)). ring.
    - rewrite (@bsum_add Rs). unfold tr at 2 3 4. apply (f_equal2 Rplus).
      + apply (@bsum_ext Rs). intros q _. now rewrite Nat.add_0_r.
      + apply RS_minus.
  Qed.
  Lemma comm_M ne (v : vc) e : carries ne v -> Up (Dn v) e = Dn (Up v) e + 2 * hf (Mz ne) * v e.
  Proof.
    intros H. rewrite comm_num, !num_count. apply f_equal. destruct ((count (bits e 0 n) =? fst ne) && (count (bits e n n) =? snd ne))%nat eqn:E.
    - apply andb_true_iff in E as [E1 E2]. apply Nat.eqb_eq in E1, E2. rewrite E1, E2, !INR_IZR_INZ. unfold hf, Mz. rewrite minus_IZR. lra.
    - rewrite (H e E). lra.
  Qed.
  Lemma Sz_M ne (v : vc) e : carries ne v -> Sz Rs (1 / 2) n v e = hf (Mz ne) * v e.
  Proof.
    intros H. unfold Sz. rewrite !num_count. change (@eq R (1 / 2 * (INR (count (bits e 0 n)) * v e - INR (count (bits e n n)) * v e)) (hf (Mz ne) * v e)).
    destruct ((count (bits e 0 n) =? fst ne) && (count (bits e n n) =? snd ne))%nat eqn:E.
    - apply andb_true_iff in E as [E1 E2]. apply Nat.eqb_eq in E1, E2. rewrite E1, E2, !INR_IZR_INZ. unfold hf, Mz. rewrite minus_IZR. lra.
    - rewrite (H e E). lra.
  Qed.
  Lemma Ssq_M ne (v : vc) e : carries ne v -> Ssquare Rs (1 / 2) n v e = (hf (Mz ne) * (hf (Mz ne) + 1)) * v e + Dn (Up v) e.
  Proof.
    intros H. unfold Ssquare. assert (HS : carries ne (Sz Rs (1 / 2) n v)) by (intros d Hd; rewrite (Sz_M ne) by exact H; rewrite (H d Hd); lra).
    rewrite (Sz_M ne _ _ HS), (Sz_M ne _ _ H), (comm_M ne _ _ H).
    change (@eq R (hf (Mz ne) * (hf (Mz ne) * v e) + 1 / 2 * (Dn (Up v) e + 2 * hf (Mz ne) * v e + Dn (Up v) e)) ((hf (Mz ne) * (hf (Mz ne) + 1)) * v e + Dn (Up v) e)). field.
  Qed.
  (** the squares of the norms of S-|s,m> and S+|s,m> *)
  Definition sq_dn (S M : Z) : R := (hf S + hf M) * (hf S - hf M + 1).
  Definition sq_up (S M : Z) : R := (hf S - hf M) * (hf S + hf M + 1).
  Definition sq_lad (raise : bool) : Z -> Z -> R := if raise then sq_up else sq_dn.
  Lemma pure_up ne S (v : vc) : carries ne v -> (spin_pure n S v <-> veq Rs m (Dn (Up v)) (fun e => sq_up S (Mz ne) * v e)).
  Proof.
    intros H. unfold spin_pure, sq_up. split; intros E e He; specialize (E e He); rewrite (Ssq_M ne) in * by exact H.
    - change (@eq R (hf (Mz ne) * (hf (Mz ne) + 1) * v e + Dn (Up v) e) (hf S * (hf S + 1) * v e)) in E. lra.
    - rewrite E. change (@eq R (hf (Mz ne) * (hf (Mz ne) + 1) * v e + (hf S - hf (Mz ne)) * (hf S + hf (Mz ne) + 1) * v e) (hf S * (hf S + 1) * v e)). ring.
  Qed.
  Lemma pure_dn ne S (v : vc) : carries ne v -> (spin_pure n S v <-> veq Rs m (Up (Dn v)) (fun e => sq_dn S (Mz ne) * v e)).
  Proof.
    intros H. rewrite (pure_up ne) by exact H. unfold sq_up, sq_dn. split; intros E e He; specialize (E e He); rewrite (comm_M ne) in * by exact H.
    - rewrite E. rring.
    - match type of E with ?x = ?y => change (@eq R x y) in E end. lra.
  Qed.
  Lemma pure_lad raise ne S (v : vc) : carries ne v -> (spin_pure n S v <-> veq Rs m (lad n (negb raise) (lad n raise v)) (fun e => sq_lad raise S (Mz ne) * v e)).
  Proof. destruct raise; [apply pure_up|apply pure_dn]. Qed.

  Lemma carries_lad raise ne c : vacuum n ne raise = false -> carries (ne1 ne raise) (lad n raise (ci_state n ne c)).
  Proof.
    intros Hv e He. rewrite lad_hop. apply (@bsum_0 Rs). intros p Hp. apply in_seq in Hp. destruct (hop_term n raise p (ci_state n ne c) e ltac:(lia)) as (e' & BA & BB & ->).
    destruct (_ || _)%bool eqn:Eo; [reflexivity|]. assert (Z : ci_state n ne c e' = 0); [|rewrite Z; cbn; lra]. apply ci_carries. rewrite BA, BB.
    rewrite (hop_counts n ne raise p) by (auto using bits_length; lia). exact He.
  Qed.
  Lemma Mz1 n' ne raise : vacuum n' ne raise = false -> Mz (ne1 ne raise) = (Mz ne + if raise then 2 else -2)%Z.
  Proof. intros Hv. unfold Mz, ne1, kt, vacuum in *. destruct ne as [na nb]. cbn [fst snd] in *. destruct raise; apply orb_false_iff in Hv as [V1 V2]; apply Nat.eqb_neq in V1, V2; cbn [negb]; lia. Qed.
  Lemma sq_shift raise S M : sq_lad (negb raise) S (M + if raise then 2 else -2) = sq_lad raise S M.
  Proof. unfold sq_lad, sq_up, sq_dn. destruct raise; cbn [negb]; rewrite ?hf_add, ?hf_2; [|replace (hf (-2)) with (-1) by (unfold hf; lra)]; ring. Qed.

  (** normalised application of a ladder operator *)
  Definition nlad (raise : bool) (S M : Z) (v : vc) : vc := fun e => lad n raise v e / sqrt (sq_lad raise S M).
  Lemma nlad_step raise ne S c (w : vc) : let v := ci_state n ne c in let q := sq_lad raise S (Mz ne) in
    vacuum n ne raise = false -> spin_pure n S v -> 0 < q -> (forall e, w e = nlad raise S (Mz ne) v e) ->
    spin_pure n S w /\ inner Rs m w w = inner Rs m v v /\ veq Rs m (nlad (negb raise) S (Mz ne + if raise then 2 else -2) w) v.
  Proof.
    intros v q Hv Hp Hq Hw. pose proof (ci_carries ne c) as Hc. fold v in Hc. pose proof (proj1 (pure_lad raise ne S v Hc) Hp) as HL. fold q in HL.
    assert (Sq : sqrt q * sqrt q = q) by (apply sqrt_sqrt; lra). assert (Sp : 0 < sqrt q) by (apply sqrt_lt_R0; exact Hq).
    assert (Hw' : forall e, w e = / sqrt q * lad n raise v e) by (intros e; rewrite Hw; unfold nlad; fold q; unfold Rdiv; rring).
    assert (CW : carries (ne1 ne raise) w) by (intros e He; rewrite Hw'; unfold v; rewrite (carries_lad raise ne c Hv e He); rring).
    assert (LW : veq Rs m (lad n (negb raise) w) (fun e => sqrt q * v e)).
    { intros e He. rewrite (lad_v _ w (fun d => / sqrt q * lad n raise v d)) by exact Hw'. rewrite lad_mul, (HL e He). change (@eq R (/ sqrt q * (q * v e)) (sqrt q * v e)). transitivity (/ sqrt q * (sqrt q * sqrt q * v e)); [now rewrite Sq|]. field. lra. }
    assert (MM : Mz (ne1 ne raise) = (Mz ne + if raise then 2 else -2)%Z) by (apply (Mz1 n); exact Hv).
    split; [|split].
    - apply (pure_lad (negb raise) (ne1 ne raise) S w CW). rewrite MM, sq_shift, negb_involutive. fold q. intros e He.
      rewrite (lad_veq raise _ _ LW e He). rewrite lad_mul, Hw'. change (@eq R (sqrt q * lad n raise v e) (q * (/ sqrt q * lad n raise v e))). transitivity (sqrt q * sqrt q * (/ sqrt q * lad n raise v e)); [field; lra|now rewrite Sq].
    - transitivity (inner Rs m w (fun e => / sqrt q * lad n raise v e)); [apply inner_ext; intros d _; [reflexivity|apply Hw']|].
      rewrite (inner_scale_r n), lad_adj. rewrite (inner_ext Rs m _ (fun e => sqrt q * v e) v v LW) by (intros d _; reflexivity). rewrite (inner_scale_l n). match goal with |- ?a = ?b => change (@eq R a b) end; field; lra.
    - intros e He. unfold nlad. rewrite sq_shift. fold q. rewrite (LW e He). match goal with |- ?a = ?b => change (@eq R a b) end; field; lra.
  Qed.
End Ang.
