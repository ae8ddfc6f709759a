(** C59: the variables of a LASSCF problem, my_pyscf/mcscf/lasscf_sync_o0.py:334-532 *)
From Coq Require Import List Arith Bool Lia ZArith.
From Verif Require Import Base UggModel UggProofs.
Import ListNotations.

(** ** Specification *)
(** [UggProofs.cls sizes p]: the number of the space in which orbital p lies, for consecutive spaces
    of the given sizes; beyond the last one it is the number of spaces (virtual orbitals).
    [UggProofs.pairs sizes]: the sum of the products of all pairs of sizes. *)

(** The rotations that the generators of a calculation use: nonredundant, between orbitals that
    are not frozen and have the same symmetry. *)
Definition allowed (nmo ncore : nat) (ncas : list nat) (frozen : list nat) (orbsym : nat -> nat) : nat -> nat -> bool :=
  symm_allowed orbsym (nonfrozen frozen (all_nonredundant_idx nmo ncore ncas)).

Section S.
Context {K : Type}.
Variables (k0 : K) (ksub : K -> K -> K) (nmo : nat) (idx : nat -> nat -> bool).
Variables (tfs : list (list (@tf K))) (frozen_ci : list nat).
Definition asym_mask : Prop := forall p q, p < nmo -> q < nmo -> idx p q = true -> idx q p = false.
(** a matrix of rotations without redundant elements *)
Definition skew (kappa : nat -> nat -> K) : Prop :=
  (forall p q, p < nmo -> q < nmo -> idx p q = true -> kappa q p = ksub k0 (kappa p q)) /\
  (forall p q, p < nmo -> q < nmo -> idx p q = false -> idx q p = false -> kappa p q = k0).
(** one CI vector per fragment and state, of the right number of determinants *)
Definition ci_shape (ci : list (list (list K))) : Prop := Forall2 (Forall2 (fun t v => length v = ndet t)) tfs ci.
(** what a name stands for *)
Definition stands_for (w : what) (kappa : nat -> nat -> K) (ci : list (list (list K))) (v : K) : Prop :=
  match w with
  | Orb p q => p < nmo /\ q < nmo /\ idx p q = true /\ v = kappa p q
  | CI i j k => frz frozen_ci i = false /\
      exists tl t cl c, nth_error tfs i = Some tl /\ nth_error tl j = Some t /\
        nth_error ci i = Some cl /\ nth_error cl j = Some c /\ nth_error (det2csf t c) k = Some v
  end.
End S.

(** ** the mask *)
Theorem C59_mask : forall nmo ncore ncas p q, p < nmo -> q < nmo ->
  (all_nonredundant_idx nmo ncore ncas p q = true <-> cls (ncore :: ncas) q < cls (ncore :: ncas) p).
Proof. intros nmo ncore ncas p q Hp _. now apply mask_iff. Qed.

(** Of any two orbitals of different spaces exactly one rotation is a variable; within a space none. *)
Theorem C59_mask_once : forall nmo ncore ncas p q, p < nmo -> q < nmo ->
  (cls (ncore :: ncas) p = cls (ncore :: ncas) q ->
     all_nonredundant_idx nmo ncore ncas p q = false) /\
  (cls (ncore :: ncas) p <> cls (ncore :: ncas) q ->
     all_nonredundant_idx nmo ncore ncas p q = negb (all_nonredundant_idx nmo ncore ncas q p)).
Proof.
  intros nmo ncore ncas p q Hp Hq.
  pose proof (mask_iff nmo ncore ncas p q Hp) as A. pose proof (mask_iff nmo ncore ncas q p Hq) as B.
  destruct (all_nonredundant_idx nmo ncore ncas p q), (all_nonredundant_idx nmo ncore ncas q p); cbn [negb];
    split; intros C; try reflexivity; exfalso;
    destruct A as [A1 A2], B as [B1 B2]; try (specialize (A1 eq_refl)); try (specialize (B1 eq_refl)); try lia.
Qed.

Theorem C59_mask_count : forall nmo ncore ncas, ncore + sumN ncas <= nmo ->
  nvar_orb nmo (all_nonredundant_idx nmo ncore ncas)
  = pairs (ncore :: ncas ++ [nmo - (ncore + sumN ncas)]).
Proof.
  intros nmo ncore ncas H. unfold nvar_orb. rewrite positions_count.
  set (l := (ncore :: ncas) ++ [nmo - (ncore + sumN ncas)]).
  change (ncore :: ncas ++ [nmo - (ncore + sumN ncas)]) with l.
  assert (E : fold_right Nat.add 0 l = nmo).
  { unfold l. rewrite sum_app. cbn [fold_right]. unfold sumN in *. lia. }
  rewrite <- (count2_cls l), E. apply count2_ext. intros p q Hp Hq.
  unfold l. rewrite !cls_app_one by (cbn [fold_right]; unfold sumN in *; lia).
  apply eq_true_iff_eq. rewrite Nat.ltb_lt. now apply mask_iff.
Qed.

(** with frozen orbitals and symmetries: one variable for each rotation between different spaces of
    two orbitals that are not frozen and have the same symmetry *)
Theorem C59_allowed : forall nmo ncore ncas frozen orbsym p q, p < nmo -> q < nmo ->
  (allowed nmo ncore ncas frozen orbsym p q = true <->
     cls (ncore :: ncas) q < cls (ncore :: ncas) p /\ ~ In p frozen /\ ~ In q frozen /\ orbsym p = orbsym q).
Proof.
  intros nmo ncore ncas frozen orbsym p q Hp Hq. unfold allowed, symm_allowed, nonfrozen.
  rewrite !andb_true_iff, negb_true_iff, orb_false_iff, Nat.eqb_eq, (mask_iff nmo ncore ncas p q Hp).
  assert (E : forall x, existsb (Nat.eqb x) frozen = false <-> ~ In x frozen).
  { intros x. rewrite <- not_true_iff_false, existsb_exists. split; intros H C; apply H.
    - exists x. split; [exact C|apply Nat.eqb_refl].
    - destruct C as (y & I & Ey). apply Nat.eqb_eq in Ey. now subst y. }
  rewrite !E. tauto.
Qed.
Theorem C59_allowed_once : forall nmo ncore ncas frozen orbsym, asym_mask nmo (allowed nmo ncore ncas frozen orbsym).
Proof.
  intros nmo ncore ncas frozen orbsym p q Hp Hq A. destruct (allowed nmo ncore ncas frozen orbsym q p) eqn:B; [|reflexivity].
  apply C59_allowed in A; [|assumption|assumption]. apply C59_allowed in B; [|assumption|assumption]. lia.
Qed.

(** ** packing and unpacking *)
Section T.
Context {K : Type}.
Variables (k0 : K) (ksub : K -> K -> K).
Hypothesis ksub0 : forall x, ksub x k0 = x.
Variables (nmo : nat) (idx : nat -> nat -> bool).
Hypothesis Hidx : asym_mask nmo idx.
Variables (tfs : list (list (@tf K))) (frozen_ci : list nat).
Hypothesis Htf : Forall (Forall tf_ok) tfs.

Lemma pack_eq : forall kappa ci,
  pack nmo idx tfs frozen_ci kappa ci =
  let x := map (fun pq => kappa (fst pq) (snd pq)) (positions nmo idx) ++ ci_vars frozen_ci 0 tfs ci in
  py_assert (length x =? nvar_tot nmo idx tfs frozen_ci) (Ok x).
Proof. intros. unfold pack. rewrite pack_fold. reflexivity. Qed.

Lemma firstn_all_le {A} n (l : list A) : length l = n -> firstn n l = l.
Proof. intros <-. apply firstn_all. Qed.

Theorem C59_pack_unpack : forall x, length x = nvar_tot nmo idx tfs frozen_ci ->
  exists kappa ci,
    unpack k0 ksub nmo idx tfs frozen_ci x = Ok (kappa, ci) /\
    pack nmo idx tfs frozen_ci kappa ci = Ok x /\
    skew k0 ksub nmo idx kappa /\ ci_shape tfs ci /\
    (forall i l, frz frozen_ci i = true -> nth_error tfs i = Some l ->
       nth_error ci i = Some (map (fun t => repeat k0 (ndet t)) l)).
Proof.
  intros x Lx. rewrite nvar_tot_eq in Lx. unfold unpack.
  replace (length x <? nvar_orb nmo idx) with false by (symmetry; apply Nat.ltb_ge; lia).
  destruct (unpack_ci_ok k0 frozen_ci tfs Htf 0 (skipn (nvar_orb nmo idx) x)) as (c & E & S & V & Z).
  { rewrite skipn_length. lia. }
  cbn zeta. rewrite E. cbn [bind]. eexists. exists c. split; [reflexivity|].
  set (x1 := firstn (nvar_orb nmo idx) x).
  assert (L1 : length x1 = nvar_orb nmo idx) by (unfold x1; rewrite firstn_length; lia).
  assert (K1 : forall p q, p < nmo -> q < nmo -> idx p q = true -> scatter k0 nmo idx x1 q p = k0).
  { intros p q Hp Hq I. apply scatter_out. intros (_ & _ & C). rewrite (Hidx p q Hp Hq I) in C. discriminate. }
  split; [|split; [|split]].
  - rewrite pack_eq. cbn zeta.
    assert (G : map (fun pq => ksub (scatter k0 nmo idx x1 (fst pq) (snd pq)) (scatter k0 nmo idx x1 (snd pq) (fst pq))) (positions nmo idx) = x1).
    { transitivity (map (fun pq => scatter k0 nmo idx x1 (fst pq) (snd pq)) (positions nmo idx)); [|exact (gather_scatter k0 nmo idx x1 L1)]. apply map_ext_in. intros [p q] I.
      apply positions_in in I. cbn [fst snd]. rewrite (K1 p q) by apply I. apply ksub0. }
    rewrite G, V, firstn_all_le by (rewrite skipn_length; lia).
    unfold x1. rewrite firstn_skipn. rewrite nvar_tot_eq, Lx, Nat.eqb_refl. reflexivity.
  - split.
    + intros p q Hp Hq I. rewrite (K1 p q Hp Hq I). now rewrite ksub0.
    + intros p q Hp Hq I J. rewrite !scatter_out; [apply ksub0| |]; intros (_ & _ & C); congruence.
  - exact S.
  - intros i l F N. exact (Z i l F N).
Qed.

Theorem C59_unpack_pack : forall kappa ci,
  skew k0 ksub nmo idx kappa -> length ci = length tfs ->
  (forall i l c, nth_error tfs i = Some l -> nth_error ci i = Some c -> frz frozen_ci i = false ->
     Forall2 (fun t v => length v = ndet t /\ csf2det t (det2csf t v) = v) l c) ->
  exists x kappa' ci',
    pack nmo idx tfs frozen_ci kappa ci = Ok x /\ length x = nvar_tot nmo idx tfs frozen_ci /\
    unpack k0 ksub nmo idx tfs frozen_ci x = Ok (kappa', ci') /\
    (forall p q, p < nmo -> q < nmo -> kappa' p q = kappa p q) /\
    length ci' = length ci /\
    (forall i l c, nth_error tfs i = Some l -> nth_error ci i = Some c ->
       nth_error ci' i = Some (if frz frozen_ci i then map (fun t => repeat k0 (ndet t)) l else c)).
Proof.
  intros kappa ci [Sk1 Sk2] Lc Sp.
  destruct (unpack_ci_pack k0 frozen_ci tfs ci Htf 0 Lc Sp) as (N & U).
  rewrite pack_eq. cbn zeta.
  set (x1 := map (fun pq => kappa (fst pq) (snd pq)) (positions nmo idx)).
  assert (L1 : length x1 = nvar_orb nmo idx) by (unfold x1; apply map_length).
  assert (Lx : length (x1 ++ ci_vars frozen_ci 0 tfs ci) = nvar_tot nmo idx tfs frozen_ci).
  { rewrite app_length, L1, N, nvar_tot_eq. reflexivity. }
  exists (x1 ++ ci_vars frozen_ci 0 tfs ci).
  unfold unpack. replace (length _ <? nvar_orb nmo idx) with false.
  2:{ symmetry. apply Nat.ltb_ge. rewrite app_length. lia. }
  cbn zeta. rewrite <- L1, firstn_app, firstn_all, Nat.sub_diag, skipn_app, skipn_all, Nat.sub_diag.
  cbn [firstn skipn app]. rewrite app_nil_r, U. cbn [bind].
  eexists. exists (thawed k0 frozen_ci 0 tfs ci).
  split. { rewrite Lx, Nat.eqb_refl. reflexivity. }
  split; [exact Lx|]. split; [reflexivity|]. split; [|split].
  - intros p q Hp Hq. destruct (idx p q) eqn:I.
    + assert (J := Hidx p q Hp Hq I). unfold x1. rewrite scatter_gather by assumption.
      rewrite scatter_out by (intros (_ & _ & C); congruence). apply ksub0.
    + destruct (idx q p) eqn:J.
      * unfold x1. rewrite (scatter_gather k0 nmo idx kappa q p) by assumption.
        rewrite scatter_out by (intros (_ & _ & C); congruence). symmetry. now apply Sk1.
      * rewrite !scatter_out by (intros (_ & _ & C); congruence). rewrite ksub0. symmetry. now apply Sk2.
  - unfold thawed. rewrite map_length, !combine_length, seq_length. lia.
  - clear -Lc. unfold thawed. intros i l c. 
    assert (G : forall i0, nth_error tfs i = Some l -> nth_error ci i = Some c ->
      nth_error (map (fun x : nat * (list tf * list (list K)) =>
        if frz frozen_ci (fst x) then zeros_of k0 (fst (snd x)) else snd (snd x))
        (combine (seq i0 (length tfs)) (combine tfs ci))) i =
      Some (if frz frozen_ci (i0 + i) then zeros_of k0 l else c)).
    { revert ci i Lc. induction tfs as [|t tl IH]; intros [|c0 ci] [|i] Lc i0 E1 E2; try discriminate.
      - cbn in E1, E2. injection E1 as ->. injection E2 as ->. cbn [length seq combine map nth_error fst snd].
        now rewrite Nat.add_0_r.
      - cbn in E1, E2. cbn [length seq combine map nth_error fst snd].
        rewrite (IH ci i) by (cbn in Lc; auto; lia). now rewrite Nat.add_succ_comm. }
    exact (G 0).
Qed.

(** ** the names of the variables *)
Lemma a2i_state_ok : forall (l : list (@tf K)) (cl : list (list K)), Forall2 (fun t v => length v = ndet t) l cl -> Forall tf_ok l ->
  forall i j addr, addr < sumN (map ncsf l) ->
  exists j' k t c v, a2i_state i j addr l = Ok (CI i (j + j') k) /\ nth_error l j' = Some t /\ nth_error cl j' = Some c /\
    nth_error (det2csf t c) k = Some v /\
    nth_error (flat_map (fun tc => det2csf (fst tc) (snd tc)) (combine l cl)) addr = Some v.
Proof.
  induction 1 as [|t v l cl Hv H IH]; intros Hl i j addr A; [cbn in A; lia|]. inversion Hl; subst.
  cbn [map] in A. change (sumN (ncsf t :: map ncsf l)) with (ncsf t + sumN (map ncsf l)) in A.
  assert (L : length (det2csf t v) = ncsf t) by now apply tf_csf.
  cbn [a2i_state combine flat_map fst snd]. destruct (ncsf t <=? addr) eqn:E.
  - apply Nat.leb_le in E. destruct (IH ltac:(assumption) i (S j) (addr - ncsf t)) as (j' & k & t' & c' & v' & E1 & E2 & E3 & E4 & E5); [lia|].
    exists (S j'), k, t', c', v'. rewrite Nat.add_succ_comm in E1. repeat split; try assumption.
    rewrite nth_error_app2 by lia. now rewrite L.
  - apply Nat.leb_gt in E. destruct (nth_error (det2csf t v) addr) as [w|] eqn:W; [|apply nth_error_None in W; lia].
    exists 0, addr, t, v, w. rewrite Nat.add_0_r. repeat split; try assumption.
    rewrite nth_error_app1 by lia. exact W.
Qed.
Lemma a2i_frag_ok : forall (l : list (list (@tf K))) (cl : list (list (list K))), Forall2 (Forall2 (fun t v => length v = ndet t)) l cl -> Forall (Forall tf_ok) l ->
  forall F i addr,
  (forall j tl, nth_error l j = Some tl -> frz frozen_ci (i + j) = false -> nth_error F (i + j) = Some (sumN (map ncsf tl))) ->
  addr < nci frozen_ci i l ->
  exists i' j k tl t cf c v, a2i_frag frozen_ci F i addr l = Ok (CI (i + i') j k) /\ frz frozen_ci (i + i') = false /\
    nth_error l i' = Some tl /\ nth_error tl j = Some t /\ nth_error cl i' = Some cf /\ nth_error cf j = Some c /\
    nth_error (det2csf t c) k = Some v /\ nth_error (ci_vars frozen_ci i l cl) addr = Some v.
Proof.
  induction 1 as [|t v l cl Hv H IH]; intros Hl F i addr HF A; [cbn in A; lia|]. inversion Hl; subst.
  cbn [a2i_frag nci ci_vars] in *. unfold ci_part.
  assert (HF' : forall j tl, nth_error l j = Some tl -> frz frozen_ci (S i + j) = false -> nth_error F (S i + j) = Some (sumN (map ncsf tl))).
  { intros j tl E1 E2. rewrite Nat.add_succ_comm in *. exact (HF (S j) tl E1 E2). }
  destruct (frz frozen_ci i) eqn:Fi.
  - destruct (IH ltac:(assumption) F (S i) addr HF' ltac:(lia)) as (i' & j & k & tl & t' & cf & c & w & E).
    exists (S i'), j, k, tl, t', cf, c, w. rewrite <- Nat.add_succ_comm. cbn [nth_error app]. exact E.
  - pose proof (HF 0 t eq_refl) as HF0. rewrite Nat.add_0_r in HF0. rewrite (HF0 Fi).
    assert (Lf := frag_len t v ltac:(assumption) Hv).
    destruct (sumN (map ncsf t) <=? addr) eqn:E.
    + apply Nat.leb_le in E.
      destruct (IH ltac:(assumption) F (S i) (addr - sumN (map ncsf t)) HF' ltac:(lia)) as (i' & j & k & tl & t' & cf & c & w & E0 & E1 & E2 & E3 & E4 & E5 & E6 & E7).
      exists (S i'), j, k, tl, t', cf, c, w. rewrite <- Nat.add_succ_comm. cbn [nth_error]. repeat split; try assumption.
      rewrite nth_error_app2 by lia. now rewrite Lf.
    + apply Nat.leb_gt in E.
      destruct (a2i_state_ok t v Hv ltac:(assumption) i 0 addr E) as (j' & k & t' & c' & w & E1 & E2 & E3 & E4 & E5).
      exists 0, j', k, t, t', v, c', w. rewrite Nat.add_0_r. cbn [nth_error]. repeat split; try assumption.
      rewrite nth_error_app1 by (rewrite Lf; lia). exact E5.
Qed.
Lemma a2i_frag_end : forall (l : list (list (@tf K))) F i addr,
  (forall j tl, nth_error l j = Some tl -> frz frozen_ci (i + j) = false -> nth_error F (i + j) = Some (sumN (map ncsf tl))) ->
  nci frozen_ci i l <= addr -> a2i_frag frozen_ci F i addr l = Raise NameError.
Proof.
  induction l as [|t l IH]; intros F i addr HF A; [reflexivity|]. cbn [a2i_frag nci] in *.
  assert (HF' : forall j tl, nth_error l j = Some tl -> frz frozen_ci (S i + j) = false -> nth_error F (S i + j) = Some (sumN (map ncsf tl))).
  { intros j tl E1 E2. rewrite Nat.add_succ_comm in *. exact (HF (S j) tl E1 E2). }
  destruct (frz frozen_ci i) eqn:Fi; [apply IH; auto; lia|].
  pose proof (HF 0 t eq_refl) as HF0. rewrite Nat.add_0_r in HF0. rewrite (HF0 Fi).
  replace (sumN (map ncsf t) <=? addr) with true by (symmetry; apply Nat.leb_le; lia).
  apply IH; auto. lia.
Qed.
Lemma ncsf_frag_prefix : forall (l : list (list (@tf K))) i j tl, nth_error l j = Some tl ->
  (forall j', j' <= j -> frz frozen_ci (i + j') = false) ->
  nth_error (map sumN (map (fun ix => map ncsf (snd ix)) (filter (fun ix => negb (frz frozen_ci (fst ix))) (combine (seq i (length l)) l)))) j
  = Some (sumN (map ncsf tl)).
Proof.
  induction l as [|t l IH]; intros i [|j] tl E H; try discriminate; cbn [length seq combine filter fst].
  - pose proof (H 0 ltac:(lia)) as H0. rewrite Nat.add_0_r in H0. rewrite H0. cbn [negb map nth_error snd].
    cbn in E. now injection E as ->.
  - pose proof (H 0 ltac:(lia)) as H0. rewrite Nat.add_0_r in H0. rewrite H0. cbn [negb map nth_error snd].
    apply IH; [exact E|]. intros j' Hj. rewrite Nat.add_succ_comm. apply H. lia.
Qed.

(** If no fragment follows a frozen one unless it is frozen too (for instance if none is frozen). *)
Definition frozen_last : Prop := forall i j, i <= j -> j < length tfs -> frz frozen_ci i = true -> frz frozen_ci j = true.
Lemma frag_table : frozen_last -> forall j tl, nth_error tfs j = Some tl -> frz frozen_ci (0 + j) = false ->
  nth_error (map sumN (ncsf_sub tfs frozen_ci)) (0 + j) = Some (sumN (map ncsf tl)).
Proof.
  intros FL j tl E F. unfold ncsf_sub. apply ncsf_frag_prefix; [exact E|]. intros j' Hj.
  destruct (frz frozen_ci (0 + j')) eqn:G; [|reflexivity].
  rewrite <- F. symmetry. apply (FL (0 + j') (0 + j)); [lia| |exact G]. apply nth_error_Some. cbn [Nat.add]. rewrite E. discriminate.
Qed.

Theorem C59_addr : frozen_last -> forall addr kappa ci x,
  ci_shape tfs ci -> pack nmo idx tfs frozen_ci kappa ci = Ok x -> addr < nvar_tot nmo idx tfs frozen_ci ->
  exists w v, addr2idstr nmo idx tfs frozen_ci addr = Ok w /\ nth_error x addr = Some v /\
    stands_for nmo idx tfs frozen_ci w kappa ci v.
Proof.
  intros FL addr kappa ci x Sh P A. rewrite pack_eq in P. cbn zeta in P.
  set (x1 := map (fun pq => kappa (fst pq) (snd pq)) (positions nmo idx)) in *.
  assert (L1 : length x1 = nvar_orb nmo idx) by apply map_length.
  destruct (length _ =? _) in P; [|discriminate]. injection P as <-.
  unfold addr2idstr. destruct (addr <? nvar_orb nmo idx) eqn:E.
  - apply Nat.ltb_lt in E. destruct (nth_error (positions nmo idx) addr) as [[p q]|] eqn:N; [|apply nth_error_None in N; unfold nvar_orb in E; lia].
    exists (Orb p q), (kappa p q). split; [reflexivity|]. split.
    + rewrite nth_error_app1 by lia. unfold x1. rewrite nth_error_map, N. reflexivity.
    + pose proof (proj1 (positions_in nmo idx p q) (nth_error_In _ _ N)). cbn. tauto.
  - apply Nat.ltb_ge in E. rewrite nvar_tot_eq in A.
    destruct (a2i_frag_ok tfs ci Sh Htf _ 0 (addr - nvar_orb nmo idx) (frag_table FL) ltac:(lia))
      as (i' & j & k & tl & t & cf & c & v & E0 & E1 & E2 & E3 & E4 & E5 & E6 & E7).
    exists (CI (0 + i') j k), v. split; [exact E0|]. split.
    + rewrite nth_error_app2 by lia. now rewrite L1.
    + cbn. split; [exact E1|]. exists tl, t, cf, c. tauto.
Qed.

Theorem C59_addr_beyond : frozen_last -> forall addr, nvar_tot nmo idx tfs frozen_ci <= addr ->
  addr2idstr nmo idx tfs frozen_ci addr = Raise NameError.
Proof.
  intros FL addr A. rewrite nvar_tot_eq in A. unfold addr2idstr.
  replace (addr <? nvar_orb nmo idx) with false by (symmetry; apply Nat.ltb_ge; lia).
  apply a2i_frag_end; [exact (frag_table FL) | lia].
Qed.
End T.

(** ** Examples *)
Module Ex.
Open Scope Z_scope.
Definition ident (n : nat) : @tf Z := mkTf n n (fun v => v) (fun v => v).
(** two determinants, one CSF: their sum over two and the CSF with both equal (as in a singlet) *)
Definition single : @tf Z := mkTf 1 2 (fun v => [(nth 0%nat v 0 + nth 1%nat v 0) / 2]) (fun c => [nth 0%nat c 0; nth 0%nat c 0]).
Lemma ident_ok n : tf_ok (ident n).
Proof. split; cbn; auto. Qed.
Lemma single_ok : tf_ok single.
Proof.
  split; cbn [single ncsf ndet det2csf csf2det]; intros; [reflexivity | reflexivity|].
  destruct c as [|a [|b c]]; try discriminate. cbn [nth]. f_equal. rewrite Z.add_diag, Z.mul_comm. now apply Z.div_mul.
Qed.
(** one inactive orbital, fragments of two and one orbitals, one virtual: 5 orbitals *)
Example ex_mask : map (fun p => map (all_nonredundant_idx 5 1 [2; 1]%nat p) (seq 0 5)) (seq 0 5)
  = [[false; false; false; false; false];
     [true;  false; false; false; false];
     [true;  false; false; false; false];
     [true;  true;  true;  false; false];
     [true;  true;  true;  true;  false]].
Proof. vm_compute. reflexivity. Qed.
Example ex_count : nvar_orb 5 (all_nonredundant_idx 5 1 [2; 1]%nat) = 9%nat /\ pairs [1; 2; 1; 1]%nat = 9%nat.
Proof. vm_compute. auto. Qed.
Example ex_allowed : positions 5 (allowed 5 1 [2; 1]%nat [0%nat] (fun p => Nat.modulo p 2)) = [(3, 1)%nat; (4, 2)%nat].
Proof. vm_compute. reflexivity. Qed.
Definition m5 := all_nonredundant_idx 5 1 [2; 1]%nat.
Definition fr : list (list (@tf Z)) := [[single; ident 2]; [ident 1; ident 1]].
Definition xs : list Z := map Z.of_nat (seq 1 14).
Example ex_pack : nvar_tot 5 m5 fr [] = 14%nat /\
  match unpack 0 Z.sub 5 m5 fr [] xs with
  | Ok (kappa, ci) => ci = [[[10; 10]; [11; 12]]; [[13]; [14]]] /\
      map (kappa 4%nat) (seq 0 5) = [6; 7; 8; 9; 0] /\ map (fun p => kappa p 4%nat) (seq 0 5) = [-6; -7; -8; -9; 0] /\
      pack 5 m5 fr [] kappa ci = Ok xs
  | Raise _ => False
  end.
Proof. vm_compute. auto. Qed.
(** a frozen fragment has no variables, and its vectors come back as zeros *)
Example ex_frozen : nvar_tot 5 m5 fr [0%nat] = 11%nat /\
  match unpack 0 Z.sub 5 m5 fr [0%nat] (map Z.of_nat (seq 1 11)) with
  | Ok (kappa, ci) => ci = [[[0; 0]; [0; 0]]; [[10]; [11]]] | Raise _ => False end.
Proof. vm_compute. auto. Qed.
Example ex_addr : map (addr2idstr 5 m5 fr []) [1; 8; 9; 11; 12; 14]%nat
  = [Ok (Orb 2 0); Ok (Orb 4 3); Ok (CI 0 0 0); Ok (CI 0 1 1); Ok (CI 1 0 0); Raise NameError].
Proof. vm_compute. reflexivity. Qed.
(** the CSF basis need not span: a vector outside comes back projected *)
Example ex_projection : det2csf single [3; 5] = [4] /\ csf2det single [4] = [4; 4].
Proof. vm_compute. auto. Qed.
(** fewer fragments than the generators have: the assertion of pack *)
Example ex_short : pack 5 m5 fr [] (fun _ _ => 0) [[[1; 1]; [1; 2]]] = Raise AssertionError.
Proof. vm_compute. reflexivity. Qed.
End Ex.

(** With a frozen fragment before another, a variable can get the name of another one: *)
Theorem C59_addr_refuted : exists (nmo : nat) (idx : nat -> nat -> bool) (tfs : list (list (@tf Z))) (frozen_ci : list nat) kappa ci x addr v w,
  Forall (Forall tf_ok) tfs /\ asym_mask nmo idx /\ ci_shape tfs ci /\
  pack nmo idx tfs frozen_ci kappa ci = Ok x /\ (addr < nvar_tot nmo idx tfs frozen_ci)%nat /\
  addr2idstr nmo idx tfs frozen_ci addr = Ok w /\ nth_error x addr = Some v /\
  ~ stands_for nmo idx tfs frozen_ci w kappa ci v.
Proof.
  exists 1%nat, (fun _ _ => false), [[Ex.ident 1]; [Ex.ident 2]; [Ex.ident 1]; [Ex.ident 3]], [0%nat],
    (fun _ _ => 0%Z), [[[1%Z]]; [[2%Z; 3%Z]]; [[4%Z]]; [[5%Z; 6%Z; 7%Z]]], [2%Z; 3%Z; 4%Z; 5%Z; 6%Z; 7%Z], 1%nat, 3%Z, (CI 2 0 0).
  repeat split.
  - repeat (apply Forall_cons || apply Forall_nil || apply Ex.ident_ok).
  - repeat (apply Forall2_cons || apply Forall2_nil || reflexivity).
  - vm_compute. lia.
  - intros C. cbn in C. destruct C as (_ & tl & t & cl & c & E1 & E2 & E3 & E4 & E5).
    injection E1 as <-. cbn in E2. injection E2 as <-. injection E3 as <-. injection E4 as <-. cbn in E5. discriminate.
Qed.
(** ... and a valid address can raise either error: *)
Theorem C59_addr_raises_refuted : forall e, In e [IndexError; NameError] ->
  exists (nmo : nat) (idx : nat -> nat -> bool) (tfs : list (list (@tf Z))) (frozen_ci : list nat) addr,
  Forall (Forall tf_ok) tfs /\ asym_mask nmo idx /\
  (addr < nvar_tot nmo idx tfs frozen_ci)%nat /\ addr2idstr nmo idx tfs frozen_ci addr = Raise e.
Proof.
  intros e [<-|[<-|[]]].
  - exists 1%nat, (fun _ _ => false), [[Ex.ident 1]; [Ex.ident 2]], [0%nat], 0%nat.
    repeat split; try (vm_compute; lia). repeat (apply Forall_cons || apply Forall_nil || apply Ex.ident_ok).
  - exists 1%nat, (fun _ _ => false), [[Ex.ident 1]; [Ex.ident 1]; [Ex.ident 3]], [0%nat], 1%nat.
    repeat split; try (vm_compute; lia). repeat (apply Forall_cons || apply Forall_nil || apply Ex.ident_ok).
Qed.

Print Assumptions C59_mask.
Print Assumptions C59_allowed.
Print Assumptions C59_allowed_once.
Print Assumptions C59_pack_unpack.
Print Assumptions C59_unpack_pack.
Print Assumptions C59_addr.
