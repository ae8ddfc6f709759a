(** Property C70: the density matrices of linear combinations of product states. *)
From Coq Require Import List NArith ZArith Arith Bool Lia Permutation QArith Qcanon.
From Verif Require Import Base BaseFacts Star AddrModel AddrSpec AddrProofs SCModel SCSpec FockSpec FockFacts FockOps LprodSpec LasFock LasElem SignsModel LasSigns ExcSpec ExcModel UexcModel PropExc PropUexc PropSC.
From Verif Require Import StdmModel StdmFacts PropStdm CrunchModel CrunchSpec CrunchAll CrunchEnd PropCrunch HamModel OvlpFacts PropHam RdmModel RdmFdm RdmEnd.
Import ListNotations.
Close Scope Qc_scope. Close Scope Q_scope.
Local Open Scope nat_scope.

(** all product states, each once *)
Definition all_states {K : star_ring} (P : model_space K) (l : list (nat * list nat)) : Prop :=
  NoDup l /\ forall r e, In (r, e) l <-> r < m_nroots P /\ in_range (dims_of (w_lroots P) r) e.
(** the combination of the product states with the coefficients in a column of SI *)
Definition combine_states {K : star_ring} (P : model_space K) (l : list (nat * list nat)) (c : list K) : vec K := fun d =>
  bsum l (fun a => smul (nth (states_before (w_lroots P) (fst a) + colmajor (dims_of (w_lroots P) (fst a)) (snd a)) c s0) (product P (fst a) (snd a) d)).
Definition columns {K : star_ring} (P : model_space K) (si : list (list K)) : Prop :=
  Forall (fun c => length c = states_before (w_lroots P) (m_nroots P)) si.

Section Facts.
  Context {K : star_ring}.
  Add Ring Kring : (sring K).
  Lemma field_lin {A} m p k (l : list A) (c : A -> K) (v : A -> vec K) (w : vec K) d : (forall d, w d = bsum l (fun a => smul (c a) (v a d))) ->
    field K m p k w d = bsum l (fun a => smul (c a) (field K m p k (v a) d)).
  Proof.
    intros E. assert (Z : s0 = bsum l (fun a => smul (c a) s0)) by (symmetry; apply bsum_0; intros; ring).
    assert (G : forall b e, sg K b (w e) = bsum l (fun a => smul (c a) (sg K b (v a e)))).
    { intros b e. rewrite E. destruct b; cbn [sg]; [|reflexivity]. transitivity (smul (sopp s1) (bsum l (fun a => smul (c a) (v a e)))); [ring|]. rewrite bsum_mul_l. apply bsum_ext. intros; ring. }
    unfold field. destruct k; unfold cre, ann; destruct (bt d p); first [exact Z|apply G].
  Qed.
  Lemma gops_lin {A} nf n ops (l : list A) (c : A -> K) (v : A -> vec K) d :
    gops K nf n ops (fun d => bsum l (fun a => smul (c a) (v a d))) d = bsum l (fun a => smul (c a) (gops K nf n ops (v a) d)).
  Proof.
    revert d. induction ops as [|[k [[f dn] o]] ops IH]; intros d; [reflexivity|]. cbn [gops fold_right]. apply field_lin. exact IH.
  Qed.
  Lemma inner_lin {A B} m (l : list A) (c : A -> K) (v : A -> vec K) (l' : list B) (c' : B -> K) (v' : B -> vec K) :
    inner K m (fun d => bsum l (fun a => smul (c a) (v a d))) (fun d => bsum l' (fun b => smul (c' b) (v' b d))) =
    bsum l (fun a => bsum l' (fun b => smul (smul (sconj (c a)) (c' b)) (inner K m (v a) (v' b)))).
  Proof.
    unfold inner.
    transitivity (bsum (dets m) (fun d => bsum l (fun a => bsum l' (fun b => smul (smul (sconj (c a)) (c' b)) (smul (sconj (v a d)) (v' b d)))))).
    - apply bsum_ext. intros d _. rewrite bsum_conj, bsum_mul_r. apply bsum_ext. intros a _. rewrite bsum_mul_l. apply bsum_ext. intros b _. rewrite sconj_mul. ring.
    - rewrite bsum_swap. apply bsum_ext. intros a _. rewrite bsum_swap. apply bsum_ext. intros b _. symmetry. apply bsum_mul_l.
  Qed.
  Variable P : model_space K.
  Hypothesis Pp : proper P.
  Lemma idxs_all dims : forall g, In g (idxs dims) <-> in_range dims g.
  Proof.
    induction dims as [|d ds IH]; intros g; cbn [idxs].
    - split; [intros [<-|[]]; constructor|]. intros H. inversion H. now left.
    - split; [exact (idxs_range (d :: ds) g)|]. intros H. inversion H as [|x y xs ys H1 H2]; subst. apply in_flat_map. exists y. split; [apply in_seq; lia|]. apply in_map. now apply IH.
  Qed.
  Lemma nodup_flat {A B} (l : list A) (f : A -> list B) (key : B -> A) : NoDup l -> (forall a, In a l -> NoDup (f a) /\ forall b, In b (f a) -> key b = a) -> NoDup (flat_map f l).
  Proof.
    induction l as [|a l IH]; intros N H; cbn [flat_map]; [constructor|]. inversion N as [|? ? N1 N2]; subst.
    assert (D : forall b, In b (f a) -> ~ In b (flat_map f l)).
    { intros b Ib J. apply in_flat_map in J as (a' & Ia' & J). apply (proj2 (H a (or_introl eq_refl))) in Ib. apply (proj2 (H a' (or_intror Ia'))) in J. congruence. }
    assert (M := IH N2 (fun b Hb => H b (or_intror Hb))). destruct (H a (or_introl eq_refl)) as [Na _]. revert Na D. generalize (f a). clear - M. intros q Na D.
    induction q as [|b r IHr]; [exact M|]. inversion Na; subst. cbn [app]. constructor; [|apply IHr; [assumption|intros c Hc; apply D; now right]].
    intros J. apply in_app_or in J as [J|J]; [contradiction|]. exact (D b (or_introl eq_refl) J).
  Qed.
  Lemma idxs_nodup dims : NoDup (idxs dims).
  Proof.
    induction dims as [|d ds IH]; cbn [idxs]; [constructor; [intros []|constructor]|]. apply (nodup_flat (seq 0 d) _ (fun g => hd 0 g)); [apply seq_NoDup|].
    intros v _. split; [|intros b Hb; apply in_map_iff in Hb as (? & <- & _); reflexivity]. clear - IH. induction IH as [|g l N _ IH]; cbn [map]; constructor; [|exact IH]. intros J. apply in_map_iff in J as (h & E & J). injection E as ->. contradiction.
  Qed.
  Lemma states_all : all_states P (states P).
  Proof.
    split.
    - unfold states. apply (nodup_flat _ _ fst); [apply seq_NoDup|]. intros r _. split; [|intros b Hb; apply in_map_iff in Hb as (? & <- & _); reflexivity].
      pose proof (idxs_nodup (column (w_lroots P) r)) as N. induction N as [|g l N _ IH]; cbn [map]; constructor; [|exact IH]. intros J. apply in_map_iff in J as (h & E & J). injection E as ->. contradiction.
    - intros r e. unfold states. rewrite in_flat_map. rewrite (w_hd P Pp). split.
      + intros (r' & I & J). apply in_map_iff in J as (g & E & J). injection E as -> ->. apply in_seq in I. split; [lia|]. apply idxs_all. exact J.
      + intros [H1 H2]. exists r. split; [apply in_seq; lia|]. apply in_map. apply idxs_all. exact H2.
  Qed.
  Lemma all_perm l : all_states P l -> Permutation l (states P).
  Proof. intros [N H]. destruct states_all as [N' H']. apply NoDup_Permutation; [exact N|exact N'|]. intros [r e]. rewrite H, H'. reflexivity. Qed.
  Lemma columns_wide si : columns P si -> wide (w_lroots P) si.
  Proof.
    intros C c r e Hc Hr R. unfold columns in C. rewrite Forall_forall in C. rewrite (C c Hc). unfold address. rewrite (w_hd P Pp) in Hr.
    pose proof (colmajor_lt _ _ R) as L. pose proof (states_mono (w_lroots P) (S r) (m_nroots P) Hr) as M. rewrite states_S in M. change (dims_of (w_lroots P) r) with (column (w_lroots P) r). lia.
  Qed.
End Facts.

(** The kernel returns, for every pair of SI vectors, the matrix elements of the density operators between the two combinations of
    product states.  When it is told that the two vectors are the same it does half the work. *)
Theorem C70_density_matrices : forall (K : star_ring) (P : model_space K) (half : K) (big nz : K -> bool) (pyset : list nat -> list nat) (ints : nat -> @fmats K) (ovlp : nat -> nat -> nat -> list (list K))
    (si_bra si_ket : list (list K)) (hermi : bool) (l : list (nat * list nat)),
  proper P -> (forall f, f < m_nf P -> exact K (m_norb P) (m_vec P) (m_ne P) (m_nl P) f (ints f)) -> gram P ovlp -> set_like pyset ->
  sadd half half = s1 -> nz s0 = false -> (forall v, big v = false -> v = s0) -> (forall v, big (sconj v) = big v) ->
  (forall t, In t (w_tables P) -> collision_free (w_uroot P) t) ->
  columns P si_bra -> columns P si_ket -> length si_ket = length si_bra -> si_bra <> [] -> (hermi = true -> si_bra = si_ket) -> all_states P l ->
  exists R, make_rdm P half big pyset ints ovlp si_bra si_ket hermi = Ok R /\
    forall root, root < length si_bra ->
      let bra := combine_states P l (nth root si_bra []) in
      let ket := combine_states P l (nth root si_ket []) in
      forall x, tix_in (m_nf P) (m_norb P) x -> R root x = inner K (2 * norb (m_nf P) (m_norb P)) bra (gops K (m_nf P) (m_norb P) (xops x) ket).
Proof.
  intros K P half big nz pyset ints ovlp sb sk hermi l Pp Hex Hg Hset Hhalf Hnz Hbig Hbc Hcf Cb Ck Hl Hn Hh Al.
  destruct (C65_transition_densities K P half big nz pyset ints ovlp Pp Hex Hg Hset Hhalf Hnz Hbig Hbc Hcf) as (T & ET & VT).
  destruct (rootaddr_fragaddr_spec (w_lroots P) (length (hd [] (w_lroots P))) (e_ne P Pp) (e_rect P Pp)) as (ra & fa & Eg & _).
  destruct (rdm_is_sum P half big nz pyset ints ovlp Pp Hex Hg Hset Hnz Hcf ra fa Eg sb sk hermi (columns_wide P Pp sb Cb) (columns_wide P Pp sk Ck) Hl) as (T' & R & ET' & ER & VR); [destruct sb; [contradiction|cbn; lia]|exact Hh|].
  rewrite ET in ET'. injection ET' as <-. exists R. split; [exact ER|]. intros root Hr. cbn zeta. intros x Hx. rewrite VR by exact Hr.
  unfold lsum, combine_states.
  transitivity (bsum l (fun a => bsum l (fun b => smul (smul (sconj (nth (address (w_lroots P) (fst a) (snd a)) (nth root sb []) s0)) (nth (address (w_lroots P) (fst b) (snd b)) (nth root sk []) s0)) (inner K (2 * norb (m_nf P) (m_norb P)) (product P (fst a) (snd a)) (gops K (m_nf P) (m_norb P) (xops x) (product P (fst b) (snd b))))))).
  - pose proof (all_perm P Pp l Al) as Pm. rewrite (bsum_perm K l (states P) _ Pm). apply bsum_ext. intros a Ia. rewrite (bsum_perm K l (states P) _ Pm). apply bsum_ext. intros b Ib.
    unfold coeff. f_equal. destruct a as [r e], b as [r' e']. apply (proj2 (states_all P Pp)) in Ia, Ib. cbn [fst snd]. unfold address. apply VT; first [apply Ia|apply Ib|exact Hx].
  - symmetry. etransitivity; [|apply inner_lin]. apply inner_ext; [intros d _; reflexivity|]. intros d _. apply gops_lin.
Qed.
Print Assumptions C70_density_matrices.

(** What roots_trans_rdm12s returns: dm1[p,q] = <q'p>, and for dm2[p,q,r,u] the conjugate of <p'r'uq>. *)
Theorem C70_returned : forall (K : star_ring) (P : model_space K) (half : K) (big nz : K -> bool) (pyset : list nat -> list nat) (ints : nat -> @fmats K) (ovlp : nat -> nat -> nat -> list (list K))
    (si_bra si_ket : list (list K)) (hermi : bool) (l : list (nat * list nat)),
  proper P -> (forall f, f < m_nf P -> exact K (m_norb P) (m_vec P) (m_ne P) (m_nl P) f (ints f)) -> gram P ovlp -> set_like pyset ->
  sadd half half = s1 -> nz s0 = false -> (forall v, big v = false -> v = s0) -> (forall v, big (sconj v) = big v) ->
  (forall t, In t (w_tables P) -> collision_free (w_uroot P) t) ->
  columns P si_bra -> columns P si_ket -> length si_ket = length si_bra -> si_bra <> [] -> (hermi = true -> si_bra = si_ket) -> all_states P l ->
  exists R, make_rdm P half big pyset ints ovlp si_bra si_ket hermi = Ok R /\
    forall root, root < length si_bra ->
      let bra := combine_states P l (nth root si_bra []) in
      let ket := combine_states P l (nth root si_ket []) in
      let expect ops := inner K (2 * norb (m_nf P) (m_norb P)) bra (gops K (m_nf P) (m_norb P) ops ket) in
      (forall s p q, s < 2 -> orb_in (m_nf P) (m_norb P) p -> orb_in (m_nf P) (m_norb P) q -> out1 R root s p q = expect [cr s q; an s p]) /\
      (forall s p q s' r u, s < 2 -> s' < 2 -> orb_in (m_nf P) (m_norb P) p -> orb_in (m_nf P) (m_norb P) q -> orb_in (m_nf P) (m_norb P) r -> orb_in (m_nf P) (m_norb P) u ->
         out2 R root s p q s' r u = sconj (expect [cr s p; cr s' r; an s' u; an s q])).
Proof.
  intros K P half big nz pyset ints ovlp sb sk hermi l Pp Hex Hg Hset Hhalf Hnz Hbig Hbc Hcf Cb Ck Hl Hn Hh Al.
  destruct (C70_density_matrices K P half big nz pyset ints ovlp sb sk hermi l Pp Hex Hg Hset Hhalf Hnz Hbig Hbc Hcf Cb Ck Hl Hn Hh Al) as (R & ER & VR).
  exists R. split; [exact ER|]. intros root Hr. cbn zeta in *. split.
  - intros s p q Hs Hp Hq. unfold out1. rewrite (VR root Hr) by (cbn; auto). reflexivity.
  - intros s p q s' r u Hs Hs' Hp Hq Hr' Hu. unfold out2. rewrite (VR root Hr) by (cbn; repeat split; try apply Hp; try apply Hq; try apply Hr'; try apply Hu; lia). cbn [xops].
    assert (E1 : (s * 2 + s') / 2 = s) by (rewrite Nat.add_comm, Nat.div_add, Nat.div_small by lia; reflexivity).
    assert (E2 : (s * 2 + s') mod 2 = s') by (rewrite Nat.add_comm, Nat.mod_add, Nat.mod_small by lia; reflexivity). now rewrite E1, E2.
Qed.
Print Assumptions C70_returned.

(** Real numbers: the convention that lassi/op_o1/__init__.py:8-11 gives for the arrays returned. *)
Theorem C70_pyscf_convention : forall (K : star_ring) (P : model_space K) (half : K) (big nz : K -> bool) (pyset : list nat -> list nat) (ints : nat -> @fmats K) (ovlp : nat -> nat -> nat -> list (list K))
    (si_bra si_ket : list (list K)) (hermi : bool) (l : list (nat * list nat)),
  (forall x : K, sconj x = x) ->
  proper P -> (forall f, f < m_nf P -> exact K (m_norb P) (m_vec P) (m_ne P) (m_nl P) f (ints f)) -> gram P ovlp -> set_like pyset ->
  sadd half half = s1 -> nz s0 = false -> (forall v, big v = false -> v = s0) ->
  (forall t, In t (w_tables P) -> collision_free (w_uroot P) t) ->
  columns P si_bra -> columns P si_ket -> length si_ket = length si_bra -> si_bra <> [] -> (hermi = true -> si_bra = si_ket) -> all_states P l ->
  exists R, make_rdm P half big pyset ints ovlp si_bra si_ket hermi = Ok R /\
    forall root, root < length si_bra ->
      let bra := combine_states P l (nth root si_bra []) in
      let ket := combine_states P l (nth root si_ket []) in
      let expect ops := inner K (2 * norb (m_nf P) (m_norb P)) bra (gops K (m_nf P) (m_norb P) ops ket) in
      (forall s p q, s < 2 -> orb_in (m_nf P) (m_norb P) p -> orb_in (m_nf P) (m_norb P) q -> out1 R root s p q = expect [cr s q; an s p]) /\
      (forall s p q s' r u, s < 2 -> s' < 2 -> orb_in (m_nf P) (m_norb P) p -> orb_in (m_nf P) (m_norb P) q -> orb_in (m_nf P) (m_norb P) r -> orb_in (m_nf P) (m_norb P) u ->
         out2 R root s p q s' r u = expect [cr s p; cr s' r; an s' u; an s q]).
Proof.
  intros K P half big nz pyset ints ovlp sb sk hermi l Hre Pp Hex Hg Hset Hhalf Hnz Hbig Hcf Cb Ck Hl Hn Hh Al.
  destruct (C70_returned K P half big nz pyset ints ovlp sb sk hermi l Pp Hex Hg Hset Hhalf Hnz Hbig ltac:(intros v; now rewrite Hre) Hcf Cb Ck Hl Hn Hh Al) as (R & ER & VR).
  exists R. split; [exact ER|]. intros root Hr. cbn zeta in *. destruct (VR root Hr) as [V1 V2]. split; [exact V1|]. intros. rewrite V2 by assumption. apply Hre.
Qed.
Print Assumptions C70_pyscf_convention.

(** Two SI vectors over the six product states of C65: a transition and a state with itself. *)
Definition y_bra : list (list Qs) := [[zq 1; zq 0; zq 2; zq (-1); zq 1; zq 3]; [zq 0; zq 1; zq 1; zq 2; zq 0; zq (-2)]].
Definition y_ket : list (list Qs) := [[zq 2; zq 1; zq 0; zq 1; zq (-1); zq 1]; [zq 1; zq (-1); zq 1; zq 0; zq 2; zq 1]].
Definition y_ask : list tix := [X1 0 (0, 1) (1, 0); X2 1 (1, 0) (0, 1) (1, 0) (0, 0); X2 2 (0, 1) (2, 0) (2, 0) (2, 0); X2 0 (0, 0) (2, 0) (2, 0) (0, 1)].
Definition y_run (hermi : bool) (sb sk : list (list Qs)) : option (list Q) :=
  match make_rdm y_P hq x_big x_set (table_of y_P) y_ovlp sb sk hermi with Raise _ => None | Ok R => Some (map (fun x => this (R 1 x)) y_ask) end.
Definition y_elements (sb sk : list (list Qs)) : list Q :=
  map (fun x => this (inner Qs 8 (combine_states y_P y_states (nth 1 sb [])) (gops Qs 3 y_norb (xops x) (combine_states y_P y_states (nth 1 sk []))))) y_ask.
Example C70_example :
  y_run false y_bra y_ket = Some [750; 1250; 960; 50]%Q /\ y_elements y_bra y_ket = [750; 1250; 960; 50]%Q /\
  y_run true y_ket y_ket = Some [750; 1250; 0; -1600]%Q /\ y_elements y_ket y_ket = [750; 1250; 0; -1600]%Q /\
  y_run true [] [] = None.
Proof. vm_compute. repeat split; reflexivity. Qed.

(** Complex SI vectors: two orbitals with one electron of either spin, |aa> + i|bb>.  The two-body array holds the conjugates of the
    elements that the convention asks for. *)
Definition z_vec (f a i : nat) : vec Cq := fun d => if (d =? N.of_nat (5 * (i + 1)))%N then cz 1 0 else cz 0 0.
Definition z_P : model_space Cq := mkMS 1 (fun _ => 2) z_vec (fun _ _ => (1, 1)) (fun _ _ => 2) (fun _ _ => 0) 1.
Definition z_ovlp (f b k : nat) : list (list Cq) := [[cz 1 0; cz 0 0]; [cz 0 0; cz 1 0]].
Definition z_si : list (list Cq) := [[cz 1 0; cz 0 1]].
Definition z_states : list (nat * list nat) := [(0, [0]); (0, [1])].
Lemma z_proper : proper z_P.
Proof.
  split; [cbn; lia|]. split; [cbn; lia|]. split; [cbn; intros; lia|]. split; [cbn; intros; lia|].
  intros f a i Hf Hi d Hd. cbn [z_P m_vec m_norb m_ne m_nl] in *. unfold z_vec. destruct (N.eqb_spec d (N.of_nat (5 * (i + 1)))) as [->|]; [right|left; reflexivity].
  destruct i as [|[|i]]; [| |lia]; vm_compute; split; reflexivity.
Qed.
Lemma z_gram : gram z_P z_ovlp.
Proof.
  intros f b k Hf Hb Hk. cbn [z_P m_nf m_nroots m_nl m_ur m_norb m_vec] in *. split; [split; [reflexivity|intros row [<-|[<-|[]]]; reflexivity]|].
  intros i j Hi Hj. apply ceq_ok. assert (f = 0) by lia. subst f. destruct i as [|[|i]], j as [|[|j]]; try lia; vm_compute; reflexivity.
Qed.
Theorem C70_complex_convention_refuted : exists (P : model_space Cq) (ints : nat -> @fmats Cq) (ovlp : nat -> nat -> nat -> list (list Cq)) (si : list (list Cq)) (l : list (nat * list nat)) (R : rdms) (p q : nat * nat),
  proper P /\ (forall f, exact Cq (m_norb P) (m_vec P) (m_ne P) (m_nl P) f (ints f)) /\ gram P ovlp /\ set_like c_set /\ columns P si /\ length si = 1 /\ all_states P l /\
  orb_in (m_nf P) (m_norb P) p /\ orb_in (m_nf P) (m_norb P) q /\
  make_rdm P ch cbig c_set ints ovlp si si true = Ok R /\
  let psi := combine_states P l (nth 0 si []) in
  out2 R 0 0 p q 1 p q <> inner Cq (2 * norb (m_nf P) (m_norb P)) psi (gops Cq (m_nf P) (m_norb P) [cr 0 p; cr 1 p; an 1 q; an 0 q] psi).
Proof.
  pose (X := make_rdm z_P ch cbig c_set (table_of z_P) z_ovlp z_si z_si true).
  assert (T : match X with Ok R => ceq (out2 R 0 0 (0, 0) (0, 1) 1 (0, 0) (0, 1)) (inner Cq 4 (combine_states z_P z_states (nth 0 z_si [])) (gops Cq 1 (fun _ => 2) [cr 0 (0, 0); cr 1 (0, 0); an 1 (0, 1); an 0 (0, 1)] (combine_states z_P z_states (nth 0 z_si [])))) | Raise _ => true end = false) by (vm_compute; reflexivity).
  destruct X as [R|x] eqn:E; [|discriminate]. exists z_P, (table_of z_P), z_ovlp, z_si, z_states, R, (0, 0), (0, 1).
  split; [exact z_proper|]. split; [intros f; apply table_exact|]. split; [exact z_gram|]. split; [exact c_set_like|]. split; [repeat constructor|]. split; [reflexivity|]. split.
  { clear E T. split; [constructor; [intros [I|[]]; discriminate I|constructor; [intros []|constructor]]|]. intros r e. cbn [z_P m_nroots]. split.
    - intros [I|[I|[]]]; injection I as <- <-; (split; [lia|]); repeat constructor.
    - intros [Hr H]. assert (r = 0) by lia. subst r. change (dims_of (w_lroots z_P) 0) with [2] in H. inversion H as [|a b c d H1 H2]; subst. inversion H2; subst. destruct b as [|[|b]]; [now left|right; now left|lia]. }
  split; [split; [apply (Nat.lt_0_succ 0)|apply (Nat.lt_0_succ 1)]|]. split; [split; [apply (Nat.lt_0_succ 0)|apply (Nat.lt_succ_diag_r 1)]|]. split; [exact E|]. cbn zeta. intros Q.
  match type of T with ceq ?a ?b = _ => change (a = b) in Q; rewrite Q in T end. revert T. vm_compute. discriminate.
Qed.
Print Assumptions C70_complex_convention_refuted.
