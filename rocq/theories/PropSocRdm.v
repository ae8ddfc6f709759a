(** Theorems about density matrices with spin-orbit coupling (property C79). *)
From Coq Require Import List NArith ZArith Arith Bool Lia Ring Sorting.Permutation QArith Qcanon.
From Verif Require Import Base BaseFacts Star AddrModel AddrSpec AddrProofs SCModel FockSpec FockFacts FockOps LprodSpec SignsModel SignsFacts LasSigns LasFock ExcModel UexcModel PropUexc StdmModel StdmFacts PropStdm PropSC.
From Verif Require Import CrunchModel CrunchSpec CrunchAll CrunchEnd PropCrunch HamModel HamSum HamVals HamLoop HamSpec HamEnd HamOps OvlpFacts PropHam RdmModel RdmFdm RdmEnd PropRdm StdmShuffled ScatterModel ScatterFacts PropScatter HalfSpec HalfModel HalfFacts HalfDms PropHalf.
From Verif Require Import TransModel TransProofs SpinlessModel SpinlessProd PropSpinless SocModel SocFacts PropSoc SocRdmModel.
Import ListNotations.
Close Scope Qc_scope. Close Scope Q_scope.
Local Open Scope nat_scope.

Section Linear.
  Variable K : star_ring.
  Definition linear (O : vec K -> vec K) : Prop := forall (A : Type) (l : list A) (c : A -> K) (v : A -> vec K) (w : vec K) d,
    (forall d, w d = bsum l (fun a => smul (c a) (v a d))) -> O w d = bsum l (fun a => smul (c a) (O (v a) d)).
  Lemma cre_linear m p O : linear O -> linear (fun w => cre K m p (O w)).
  Proof. intros H A l c v w d E. apply (field_lin m p true l c (fun a => O (v a)) (O w) d). intros d'. now apply H. Qed.
  Lemma ann_linear m p O : linear O -> linear (fun w => ann K m p (O w)).
  Proof. intros H A l c v w d E. apply (field_lin m p false l c (fun a => O (v a)) (O w) d). intros d'. now apply H. Qed.
  Lemma id_linear : linear (fun w => w).
  Proof. intros A l c v w d E. apply E. Qed.
  Lemma combined (P : model_space K) l cb ck m (O : vec K -> vec K) : linear O ->
    inner K m (combine_states P l cb) (O (combine_states P l ck)) =
    bsum l (fun a => bsum l (fun b => smul (smul (sconj (nth (number P (fst a) (snd a)) cb s0)) (nth (number P (fst b) (snd b)) ck s0)) (inner K m (product P (fst a) (snd a)) (O (product P (fst b) (snd b)))))).
  Proof.
    intros H. unfold combine_states. etransitivity; [|apply inner_lin]. apply inner_ext; [intros d _; reflexivity|]. intros d _. apply (H _ l (fun b => nth (number P (fst b) (snd b)) ck s0) (fun b => product P (fst b) (snd b))). intros d'. reflexivity.
  Qed.
End Linear.

(** Rootspaces with different numbers of electrons of each spin: for every pair of SI vectors the arrays hold the elements between the two
    combinations of the original product states, in rdm1s for all pairs of spin orbitals. *)
Theorem C79_spin_orbitals : forall (K : star_ring) (C : ci_set K) (ptr : nat -> nat -> nat) (half : K) (big : K -> bool) (pyset : list nat -> list nat) (ints : nat -> @fmats K) (ovlp : nat -> nat -> nat -> list (list K))
    (si_bra si_ket : list (list K)) (hermi : bool) (l : list (nat * list nat)), let P := space (spinless_ci C ptr) in
  well_shared C ptr -> first_roots C -> (forall f r, f < c_nf C -> r < c_nroots C -> c_ur C f r < c_nu C f) ->
  proper P -> (forall f, f < m_nf P -> exact K (m_norb P) (m_vec P) (m_ne P) (m_nl P) f (ints f)) -> gram P ovlp -> set_like pyset ->
  sadd half half = s1 -> (forall v, big v = false -> v = s0) -> (forall v, big (sconj v) = big v) ->
  (forall t, In t (w_tables P) -> collision_free (w_uroot P) t) ->
  columns (space C) si_bra -> columns (space C) si_ket -> length si_ket = length si_bra -> si_bra <> [] -> (hermi = true -> si_bra = si_ket) -> all_states (space C) l ->
  is_spin_pure (c_nf C) (c_nroots C) (nelec_frs C) = false ->
  exists d1 d2 ne, trans_rdm12s C ptr half big pyset ints ovlp si_bra si_ket hermi = Ok (BySpinOrbital d1 d2, ne) /\
    forall root, root < length si_bra ->
      let N := norb (c_nf C) (c_norb C) in
      let bra := combine_states (space C) l (nth root si_bra []) in
      let ket := combine_states (space C) l (nth root si_ket []) in
      (forall p q, p < 2 * N -> q < 2 * N -> d1 root p q = dens1_any N bra ket p q) /\
      (forall s p q t r u, s < 2 -> t < 2 -> p < N -> q < N -> r < N -> u < N -> d2 root s p q t r u = sconj (dens2 N bra ket s p q t r u)).
Proof.
  intros K C ptr half big pyset ints ovlp sb sk hermi l P Hsh Hfr Hur Pp Hex Hg Hset Hhalf Hbig Hbc Hcf Cb Ck Hl Hn Hh Al Hpure.
  set (S := spinK K (w_nelec (space C))).
  assert (HS : forall r, sconj (S r) = S r) by (intros r; unfold S, spinK; apply sign_real).
  destruct (shuffled_densities K P S half big (fun _ => false) pyset ints ovlp HS Pp Hex Hg Hset Hhalf eq_refl Hbig Hbc Hcf) as (T & ET & VT).
  destruct (rootaddr_fragaddr_spec (w_lroots P) (length (hd [] (w_lroots P))) (e_ne P Pp) (e_rect P Pp)) as (ra & fa & Eg & _).
  destruct (rdm_is_sum_shuffled P half big (fun _ => false) pyset ints ovlp S Pp Hex Hg Hset eq_refl Hcf ra fa Eg sb sk hermi (columns_wide P Pp sb Cb) (columns_wide P Pp sk Ck) Hl) as (T' & R & ET' & ER & VR); [destruct sb; [contradiction|cbn; lia]|exact Hh|].
  assert (Q : T' = T) by congruence. subst T'.
  unfold trans_rdm12s. rewrite Hpure. fold P S. rewrite ER. cbn [bind]. unfold tidy. do 3 eexists. split; [reflexivity|].
  intros root Hroot. set (N := norb (c_nf C) (c_norb C)). set (bra := combine_states (space C) l (nth root sb [])). set (ket := combine_states (space C) l (nth root sk [])). change (list_sum (w_nlas (space C))) with N.
  (* any entry whose operator is known between product states *)
  assert (G : forall x (O : vec K -> vec K), tix_in (m_nf P) (m_norb P) x -> linear K O ->
    (forall r e r' e', r < c_nroots C -> r' < c_nroots C ->
      smul (factor K P S r r') (inner K (2 * norb (m_nf P) (m_norb P)) (product P r e) (gops K (m_nf P) (m_norb P) (xops x) (product P r' e'))) = inner K (2 * N) (product (space C) r e) (O (product (space C) r' e'))) ->
    R root x = inner K (2 * N) bra (O ket)).
  { intros x O Hx LO HO. rewrite VR by exact Hroot. unfold bra, ket. rewrite combined by exact LO. unfold lsum.
    pose proof (all_perm P Pp l Al) as Pm. rewrite (bsum_perm K l (states P) _ Pm). apply bsum_ext. intros a Ia. rewrite (bsum_perm K l (states P) _ Pm). apply bsum_ext. intros b Ib.
    destruct a as [r e], b as [r' e']. apply (proj2 (states_all P Pp)) in Ia, Ib. cbn [fst snd]. unfold coeff, address. change (number (space C) r e) with (states_before (w_lroots P) r + colmajor (dims_of (w_lroots P) r) e). change (number (space C) r' e') with (states_before (w_lroots P) r' + colmajor (dims_of (w_lroots P) r') e').
    f_equal. rewrite <- HO by first [apply Ia|apply Ib]. apply VT; first [apply Ia|apply Ib|exact Hx]. }
  assert (In2 : forall i, i < 2 * N -> orb_in (m_nf P) (m_norb P) (sigma (w_nlas (space C)) i)).
  { intros i Hi. apply in_orbs. pose proof (sigma_perm (c_nf C) (c_norb C)) as SP. cbv zeta in SP. apply (Permutation_in _ SP). apply in_map_iff. exists i. split; [reflexivity|]. apply in_seq. split; [lia|exact Hi]. }
  assert (So : forall s p, s < 2 -> p < N -> s * N + p < 2 * N /\ spin_major N (s * N + p) = spo N s p) by (intros s p; exact (spo_major K C s p)).
  split.
  - intros p q Hp Hq. apply (G _ (fun w => cre K (2 * N) (spin_major N q) (ann K (2 * N) (spin_major N p) w))).
    + split; [lia|]. split; apply In2; assumption.
    + apply cre_linear, ann_linear, id_linear.
    + intros r e r' e' Hr Hr'. exact (el1 K C ptr Hsh Hfr Hur r e r' e' q p Hr Hr' Hq Hp).
  - intros s p q t r u Hs Ht Hp Hq Hr Hu. destruct (So s p Hs Hp) as [P1 P2]. destruct (So s q Hs Hq) as [Q1 Q2]. destruct (So t r Ht Hr) as [R1 R2]. destruct (So t u Ht Hu) as [U1 U2].
    f_equal. unfold dens2. rewrite <- P2, <- Q2, <- R2, <- U2.
    apply (G _ (fun w => cre K (2 * N) (spin_major N (s * N + p)) (cre K (2 * N) (spin_major N (t * N + r)) (ann K (2 * N) (spin_major N (t * N + u)) (ann K (2 * N) (spin_major N (s * N + q)) w))))).
    + split; [lia|]. repeat split; apply In2; assumption.
    + apply cre_linear, cre_linear, ann_linear, ann_linear, id_linear.
    + intros a e a' e' Ha Ha'. exact (el2 K C ptr Hsh Hfr Hur a e a' e' _ _ _ _ Ha Ha' P1 Q1 R1 U1).
Qed.
Print Assumptions C79_spin_orbitals.

(** In real arithmetic, from the CI vectors of the fragments.  Contracted with the integrals the two arrays give <bra|H|ket>, with the
    integrals between orbitals of different spins. *)
Theorem C79_of_ci : forall (K : star_ring) (C : ci_set K) (ptr : nat -> nat -> nat) (half : K) (small big : K -> bool) (pyset : list nat -> list nat)
    (si_bra si_ket : list (list K)) (hermi : bool) (l : list (nat * list nat)), let P := space (spinless_ci C ptr) in
  (forall x : K, sconj x = x) -> ci_ok C -> well_shared C ptr -> first_roots C -> small s0 = true -> set_like pyset -> sadd half half = s1 -> (forall v, big v = false -> v = s0) ->
  (forall t, In t (w_tables P) -> collision_free (w_uroot P) t) ->
  columns (space C) si_bra -> columns (space C) si_ket -> length si_ket = length si_bra -> si_bra <> [] -> (hermi = true -> si_bra = si_ket) -> all_states (space C) l ->
  is_spin_pure (c_nf C) (c_nroots C) (nelec_frs C) = false ->
  exists d1 d2 ne, trans_rdm12s_of_ci C ptr half small big pyset si_bra si_ket hermi = Ok (BySpinOrbital d1 d2, ne) /\
    forall root, root < length si_bra ->
      let N := norb (c_nf C) (c_norb C) in
      let bra := combine_states (space C) l (nth root si_bra []) in
      let ket := combine_states (space C) l (nth root si_ket []) in
      (forall p q, p < 2 * N -> q < 2 * N -> d1 root p q = dens1_any N bra ket p q) /\
      (forall s p q t r u, s < 2 -> t < 2 -> p < N -> q < N -> r < N -> u < N -> d2 root s p q t r u = dens2 N bra ket s p q t r u) /\
      (forall (h1 : nat -> nat -> K) (h2 : nat -> nat -> nat -> nat -> K), let so := seq 0 (2 * N) in let orb := seq 0 N in
        sadd (bsum so (fun i => bsum so (fun j => smul (h1 i j) (d1 root j i))))
          (bsum (seq 0 2) (fun s => bsum orb (fun p => bsum orb (fun q => bsum (seq 0 2) (fun t => bsum orb (fun r => bsum orb (fun u => smul (smul half (h2 p q r u)) (d2 root s p q t r u)))))))) =
        soc_element N half h1 h2 bra ket).
Proof.
  intros K C ptr half small big pyset sb sk hermi l P Hreal Hci Hsh Hfr Hs Hset Hhalf Hbig Hcf Cb Ck Hl Hn Hh Al Hpure.
  destruct (tables_fine K (spinless_ci C ptr) small Hreal Hs (spinless_ok K C ptr Hci)) as (Pp & Hg & tb & E & Hex).
  destruct (C79_spin_orbitals K C ptr half big pyset (fun f => nth f tb no_mats) (frag_ovlp (spinless_ci C ptr)) sb sk hermi l) as (d1 & d2 & ne & E' & V); try assumption; [apply Hci|intros v; now rewrite Hreal|].
  exists d1, d2, ne. split; [unfold trans_rdm12s_of_ci; rewrite Hpure, E; exact E'|]. intros root Hroot. destruct (V root Hroot) as [V1 V2]. cbv zeta. split; [exact V1|].
  assert (V2' : forall s p q t r u, s < 2 -> t < 2 -> p < norb (c_nf C) (c_norb C) -> q < norb (c_nf C) (c_norb C) -> r < norb (c_nf C) (c_norb C) -> u < norb (c_nf C) (c_norb C) -> d2 root s p q t r u = dens2 (norb (c_nf C) (c_norb C)) (combine_states (space C) l (nth root sb [])) (combine_states (space C) l (nth root sk [])) s p q t r u)
    by (intros; rewrite V2 by assumption; apply Hreal).
  split; [exact V2'|]. intros h1 h2. unfold soc_element. f_equal.
  - apply bsum_ext. intros i Ii. apply bsum_ext. intros j Ij. apply in_seq in Ii, Ij. rewrite V1 by lia. reflexivity.
  - repeat (apply bsum_ext; let x := fresh "x" in let I := fresh "I" in intros x I; apply in_seq in I). rewrite V2' by lia. reflexivity.
Qed.
Print Assumptions C79_of_ci.

(** Rootspaces with the same electrons of each spin: the arrays are those of C70 and the argument is left alone. *)
Theorem C79_spin_pure : forall (K : star_ring) (C : ci_set K) (ptr : nat -> nat -> nat) (half : K) (small big : K -> bool) (pyset : list nat -> list nat)
    (si_bra si_ket : list (list K)) (hermi : bool) (l : list (nat * list nat)), let P := space C in
  (forall x : K, sconj x = x) -> ci_ok C -> small s0 = true -> set_like pyset -> sadd half half = s1 -> (forall v, big v = false -> v = s0) ->
  (forall t, In t (w_tables P) -> collision_free (w_uroot P) t) ->
  columns P si_bra -> columns P si_ket -> length si_ket = length si_bra -> si_bra <> [] -> (hermi = true -> si_bra = si_ket) -> all_states P l ->
  is_spin_pure (c_nf C) (c_nroots C) (nelec_frs C) = true ->
  exists d1 d2, trans_rdm12s_of_ci C ptr half small big pyset si_bra si_ket hermi = Ok (BySpin d1 d2, nelec_frs C) /\
    forall root, root < length si_bra ->
      let bra := combine_states P l (nth root si_bra []) in
      let ket := combine_states P l (nth root si_ket []) in
      let expect ops := inner K (2 * norb (m_nf P) (m_norb P)) bra (gops K (m_nf P) (m_norb P) ops ket) in
      (forall s p q, s < 2 -> orb_in (m_nf P) (m_norb P) p -> orb_in (m_nf P) (m_norb P) q -> d1 root s p q = expect [cr s q; an s p]) /\
      (forall s p q s' r u, s < 2 -> s' < 2 -> orb_in (m_nf P) (m_norb P) p -> orb_in (m_nf P) (m_norb P) q -> orb_in (m_nf P) (m_norb P) r -> orb_in (m_nf P) (m_norb P) u ->
         d2 root s p q s' r u = expect [cr s p; cr s' r; an s' u; an s q]).
Proof.
  intros K C ptr half small big pyset sb sk hermi l P Hreal Hci Hs Hset Hhalf Hbig Hcf Cb Ck Hl Hn Hh Al Hpure.
  destruct (tables_fine K C small Hreal Hs Hci) as (Pp & Hg & tb & E & Hex).
  destruct (C70_pyscf_convention K P half big (fun _ => false) pyset (fun f => nth f tb no_mats) (frag_ovlp C) sb sk hermi l Hreal Pp Hex Hg Hset Hhalf eq_refl Hbig Hcf Cb Ck Hl Hn Hh Al) as (R & ER & VR).
  exists (out1 R), (out2 R). split; [|exact VR]. unfold trans_rdm12s_of_ci. rewrite Hpure, E. cbn [bind]. unfold trans_rdm12s. rewrite Hpure. fold P. unfold no_mats in ER. rewrite ER. reflexivity.
Qed.
Print Assumptions C79_spin_pure.

(** The four rootspaces of C78_example: one SI vector over all five product states with another one, and with itself.  All 16 elements of
    rdm1s and 16 of rdm2s. *)
Definition sr_bra : list (list Qs) := [[zq 1; zq 0; zq 2; zq (-1); zq 1]; [zq 1; zq (-2); zq 0; zq 1; zq 3]].
Definition sr_ket : list (list Qs) := [[zq 2; zq 1; zq (-1); zq 1; zq 1]; [zq 0; zq 1; zq 1; zq 2; zq (-1)]].
Definition sr_out (hermi : bool) (sb sk : list (list Qs)) := trans_rdm12s_of_ci sp_C sp_ptr hq (fun v => negb (x_big v)) x_big c_set sb sk hermi.
Definition sr_state (root : nat) (si : list (list Qs)) : vec Qs := combine_states (space sp_C) sp_states (nth root si []).
Definition sr_pick (i : nat) : list nat := [i mod 2; (i / 2) mod 2; (i / 4) mod 2; (i / 8) mod 2].
Definition sr_got1 (root : nat) (out : res (@rdm_out Qs * (nat -> nat -> nat * nat))) : list (list Q) := match out with Ok (BySpinOrbital d1 _, _) => map (fun p => map (fun q => this (d1 root p q)) (seq 0 4)) (seq 0 4) | _ => [] end.
Definition sr_want1 (root : nat) (sb sk : list (list Qs)) : list (list Q) := map (fun p => map (fun q => this (dens1_any 2 (sr_state root sb) (sr_state root sk) p q)) (seq 0 4)) (seq 0 4).
Definition sr_got2 (root : nat) (out : res (@rdm_out Qs * (nat -> nat -> nat * nat))) : list Q := match out with Ok (BySpinOrbital _ d2, _) => map (fun i => match sr_pick i with [p; q; r; u] => this (d2 root 0 p q 1 r u) | _ => 0%Q end) (seq 0 16) | _ => [] end.
Definition sr_want2 (root : nat) (sb sk : list (list Qs)) : list Q := map (fun i => match sr_pick i with [p; q; r; u] => this (dens2 2 (sr_state root sb) (sr_state root sk) 0 p q 1 r u) | _ => 0%Q end) (seq 0 16).
Lemma sr_states : all_states (space sp_C) sp_states.
Proof.
  split; [repeat (constructor; [cbn [In]; intros H; repeat destruct H as [H|H]; try discriminate H; exact H|]); constructor|]. intros r e. cbn [sp_C space m_nroots c_nroots]. split.
  - intros H. cbn [sp_states In] in H. repeat destruct H as [H|H]; try contradiction; injection H as <- <-; (split; [lia|]); vm_compute; repeat constructor.
  - intros [Hr H]. destruct r as [|[|[|[|r]]]]; [| | | |lia]; match type of H with in_range ?d _ => let d' := eval vm_compute in d in change (in_range d' e) in H end;
      inversion H as [|a x b y A1 H2]; subst; inversion H2 as [|a' x' b' y' A2 H3]; subst; inversion H3; subst; (assert (x = 0) by lia); subst x; [assert (X : x' = 0 \/ x' = 1) by lia; destruct X as [->| ->]|assert (x' = 0) by lia; subst x'..]; cbn [sp_states In]; tauto.
Qed.
Lemma sr_free : forall t, In t (w_tables (space (spinless_ci sp_C sp_ptr))) -> collision_free (w_uroot (space (spinless_ci sp_C sp_ptr))) t.
Proof. exact (proj1 so_free). Qed.
Example C79_example : all_states (space sp_C) sp_states /\ columns (space sp_C) sr_bra /\ columns (space sp_C) sr_ket /\
  sr_got1 1 (sr_out false sr_bra sr_ket) = [[6; 0; -240; 360]; [0; -12; -9; 0]; [0; 24; -1182; 0]; [-60; 16; 12; -1200]]%Q /\ sr_want1 1 sr_bra sr_ket = sr_got1 1 (sr_out false sr_bra sr_ket) /\
  sr_got1 0 (sr_out true sr_ket sr_ket) = [[74; 0; 80; 60]; [0; 49; -21; 28]; [80; -21; 409; -12]; [60; 28; -12; 416]]%Q /\
  sr_got2 1 (sr_out true sr_ket sr_ket) = [36; 0; 0; 0; 24; 0; 0; 0; 24; 0; 0; 0; 16; 0; 0; 0]%Q /\ sr_want2 1 sr_ket sr_ket = sr_got2 1 (sr_out true sr_ket sr_ket).
Proof. split; [exact sr_states|]. split; [repeat constructor|]. split; [repeat constructor|]. vm_compute. repeat split; reflexivity. Qed.

(** The array nelec_frs of the caller is overwritten, so a second call with it finds all electrons with spin up. *)
Theorem C79_argument_refuted : exists (C : ci_set Qs) (ptr : nat -> nat -> nat) (half : Qs) (small big : Qs -> bool) (pyset : list nat -> list nat) (si : list (list Qs)) (l : list (nat * list nat))
    (d1 : nat -> nat -> nat -> Qs) (d2 : nat -> nat -> nat -> nat -> nat -> nat -> nat -> Qs) (ne : nat -> nat -> nat * nat) (f r : nat),
  ci_ok C /\ well_shared C ptr /\ first_roots C /\ small s0 = true /\ set_like pyset /\ columns (space C) si /\ all_states (space C) l /\
  trans_rdm12s_of_ci C ptr half small big pyset si si true = Ok (BySpinOrbital d1 d2, ne) /\ f < c_nf C /\ r < c_nroots C /\ nelec_frs C f r = (0, 1) /\ ne f r = (1, 0) /\
  is_spin_pure (c_nf C) (c_nroots C) (nelec_frs C) = false /\ is_spin_pure (c_nf C) (c_nroots C) ne = true.
Proof.
  assert (T : match sr_out true sr_ket sr_ket with Ok (BySpinOrbital _ _, ne) => same_ne (ne 1 1) (1, 0) && is_spin_pure 2 4 ne | _ => false end = true) by (vm_compute; reflexivity).
  destruct (sr_out true sr_ket sr_ket) as [[[d1 d2|d1 d2] ne]|x] eqn:E; try discriminate T. apply andb_true_iff in T as [T1 T2].
  destruct C67_example as (E1 & E2 & E3 & E4 & _).
  exists sp_C, sp_ptr, hq, (fun v => negb (x_big v)), x_big, c_set, sr_ket, sp_states, d1, d2, ne, 1, 1.
  split; [exact E1|]. split; [exact E2|]. split; [exact E3|]. split; [reflexivity|]. split; [exact c_set_like|]. split; [repeat constructor|]. split; [exact sr_states|]. split; [exact E|].
  split; [cbn; lia|]. split; [cbn; lia|]. split; [reflexivity|]. split; [|split; [exact E4|exact T2]].
  unfold same_ne in T1. apply andb_true_iff in T1 as [A B]. apply Nat.eqb_eq in A, B. destruct (ne 1 1). cbn [fst snd] in A, B. now subst.
Qed.
Print Assumptions C79_argument_refuted.
