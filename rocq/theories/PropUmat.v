(** C71: rootspaces whose CI vectors span the same space share one set of vectors; the results are rotated back. *)
From Coq Require Import List NArith ZArith QArith Qcanon Bool Arith Lia Permutation Ring.
From Verif Require Import Base BaseFacts Star AddrModel AddrSpec AddrProofs SCModel SCSpec FockSpec FockFacts FockOps LprodSpec LasFock LasElem SignsModel LasSigns ExcSpec ExcModel UexcModel PropExc PropUexc PropSC.
From Verif Require Import StdmModel StdmFacts PropStdm CrunchModel CrunchSpec CrunchAll CrunchEnd PropCrunch HamModel HamSpec HamEnd PropHam OvlpModel OvlpFacts PropOvlp RdmModel RdmFdm RdmEnd PropRdm UmatModel UmatFacts UmatForm UmatEnd.
Import ListNotations.
Close Scope Qc_scope. Close Scope Q_scope.
Local Open Scope nat_scope.

(** the vectors that the kernels keep: fragment, rootspace, number *)
Definition kept {K : star_ring} (P : model_space K) (f r i : nat) : vec K := m_vec P f (m_ur P f r) i.
(** the product states of the vectors as they were given *)
Definition given {K : star_ring} (P : model_space K) (umat_root : nat -> list (nat * list (list K))) (r : nat) (e : list nat) : vec K :=
  prod_state (m_nf P) (m_norb P) (original (kept P) umat_root) r e.
(** a rotation has one row and one column for every vector of its rootspace; the keys of a dictionary are distinct *)
Definition rotations_ok {K : star_ring} (P : model_space K) (umat_root : nat -> list (nat * list (list K))) : Prop :=
  forall f, f < m_nf P -> NoDup (map fst (umat_root f)) /\
    forall r u, In (r, u) (umat_root f) -> r < m_nroots P /\ length u = m_nl P f (m_ur P f r) /\ Forall (fun row => length row = m_nl P f (m_ur P f r)) u.

(** An array of matrix elements between product states becomes, whatever it has behind the two axes of states, the array of the matrix
    elements between the rotated ones: with the matrices on the ket side and, since the bra is rotated without conjugation, with their conjugates on the bra side. *)
Theorem C71_rotations : forall (K : star_ring) (nf : nat) (n : nat -> nat) (lroots : list (list nat)) (count size : nat) (umat_root : nat -> list (nat * list (list K))) (T : nat -> nat -> nat -> K),
  length lroots = nf -> states_before lroots (length (hd [] lroots)) = count -> 0 < size -> 0 < count ->
  (forall f, f < nf -> NoDup (map fst (umat_root f)) /\
    forall r u, In (r, u) (umat_root f) -> r < length (hd [] lroots) /\ 0 < nth f (dims_of lroots r) 0 /\ length u = nth f (dims_of lroots r) 0 /\ Forall (fun row => length row = nth f (dims_of lroots r) 0) u) ->
  exists T', umat_loop lroots count size (umat_items nf umat_root) T = Ok T' /\
    forall (L : vec K -> vec K -> K) (x : nat) (V : nat -> nat -> nat -> vec K), sesquilinear L -> x < size ->
      let element S Vb Vk := forall r e r' e', r < length (hd [] lroots) -> r' < length (hd [] lroots) -> in_range (dims_of lroots r) e -> in_range (dims_of lroots r') e' ->
        S (states_before lroots r + colmajor (dims_of lroots r) e) (states_before lroots r' + colmajor (dims_of lroots r') e') x = L (prod_state nf n Vb r e) (prod_state nf n Vk r' e') in
      element T V V -> element T' (original V (conjugate umat_root)) (original V umat_root).
Proof.
  intros K nf n lr count size um T Hl Hc Hs Hp Ho. destruct (loop_original nf n lr Hl count size Hc Hs Hp um T Ho) as (T' & E & V'). exists T'. split; [exact E|]. exact V'.
Qed.
Print Assumptions C71_rotations.

Section Facts.
  Context {K : star_ring}.
  Add Ring Kring : (sring K).
  Variable P : model_space K.
  Hypothesis Pp : proper P.
  Lemma rot_ok um : rotations_ok P um -> umat_ok (m_nf P) (w_lroots P) um.
  Proof.
    intros H f Hf. destruct (H f Hf) as [N A]. split; [exact N|]. intros r u I. destruct (A r u I) as (A1 & A2 & A3).
    assert (E : nth f (dims_of (w_lroots P) r) 0 = m_nl P f (m_ur P f r)).
    { unfold dims_of, w_lroots. rewrite map_map. rewrite nth_map_seq by exact Hf. rewrite nth_map_seq by exact A1. reflexivity. }
    rewrite (w_hd P Pp), E. split; [exact A1|]. split; [apply (proj1 (proj2 (proj2 Pp))); assumption|]. split; assumption.
  Qed.
  Lemma given_kept r e : prod_state (m_nf P) (m_norb P) (kept P) r e = product P r e.
  Proof. reflexivity. Qed.
  Lemma conj_real (um : nat -> list (nat * list (list K))) : (forall v : K, sconj v = v) -> forall f, conjugate um f = um f.
  Proof.
    clear Pp P. intros Hr f. unfold conjugate. induction (um f) as [|[k u] q IH]; [reflexivity|]. cbn [map fst snd]. rewrite IH. f_equal. f_equal. clear - Hr. induction u as [|row u IH]; [reflexivity|]. cbn [map]. rewrite IH. f_equal. induction row as [|y row IH']; [reflexivity|]. cbn [map]. now rewrite IH', Hr.
  Qed.
  Lemma real_given um r e d : (forall v : K, sconj v = v) -> prod_state (m_nf P) (m_norb P) (original (kept P) (conjugate um)) r e d = given P um r e d.
  Proof.
    intros Hr. pose proof (conj_real um Hr) as E.
    unfold given, prod_state, las_state, LprodSpec.bprod. generalize (seq 0 (m_nf P)). induction l as [|f q IH]; [reflexivity|]. cbn [fold_right]. rewrite IH. f_equal. unfold original. now rewrite E.
  Qed.
  Lemma count_pos : 0 < states_before (w_lroots P) (m_nroots P).
  Proof.
    pose proof (proj1 (proj2 Pp)) as H. apply (Nat.lt_le_trans _ (states_before (w_lroots P) 1)); [|apply states_mono; lia]. rewrite states_S. cbn.
    assert (G : forall q, Forall (fun row => 0 < nth 0 row 0) q -> 0 < prodN (column q 0)).
    { induction 1 as [|row q Hr _ IH]; cbn; [lia|]. apply Nat.mul_pos_pos; assumption. }
    apply G. apply Forall_forall. intros row I. unfold w_lroots in I. apply in_map_iff in I as (f & <- & I). apply in_seq in I. rewrite nth_map_seq by exact H. apply (proj1 (proj2 (proj2 Pp))); lia.
  Qed.
  Lemma w_len' : length (w_lroots P) = m_nf P.
  Proof. unfold w_lroots. now rewrite map_length, seq_length. Qed.
  (** a matrix of a sesquilinear form *)
  Lemma matrix_given um (M : nat -> nat -> K) (L : vec K -> vec K -> K) : rotations_ok P um -> sesquilinear L -> (forall v : K, sconj v = v) ->
    (forall r e r' e', r < m_nroots P -> r' < m_nroots P -> in_range (dims_of (w_lroots P) r) e -> in_range (dims_of (w_lroots P) r') e' ->
      M (states_before (w_lroots P) r + colmajor (dims_of (w_lroots P) r) e) (states_before (w_lroots P) r' + colmajor (dims_of (w_lroots P) r') e') = L (product P r e) (product P r' e')) ->
    exists M', umat_matrix (w_lroots P) (states_before (w_lroots P) (m_nroots P)) (umat_items (m_nf P) um) M = Ok M' /\
      forall r e r' e', r < m_nroots P -> r' < m_nroots P -> in_range (dims_of (w_lroots P) r) e -> in_range (dims_of (w_lroots P) r') e' ->
        M' (states_before (w_lroots P) r + colmajor (dims_of (w_lroots P) r) e) (states_before (w_lroots P) r' + colmajor (dims_of (w_lroots P) r') e') = L (given P um r e) (given P um r' e').
  Proof.
    intros Ho HL Hre HM. unfold umat_matrix.
    destruct (loop_original (m_nf P) (m_norb P) (w_lroots P) w_len' (states_before (w_lroots P) (m_nroots P)) 1 ltac:(now rewrite (w_hd P Pp)) ltac:(lia) count_pos um (fun A B _ => M A B) (rot_ok um Ho)) as (T' & E & V').
    rewrite E. cbn [bind]. eexists. split; [reflexivity|]. intros r e r' e' Lr Lr' R R'. cbn beta.
    unfold holds in V'. rewrite (w_hd P Pp) in V'. rewrite (V' L 0 (kept P) HL ltac:(lia) HM r e r' e' Lr Lr' R R'). apply HL; intros d; [now apply real_given|reflexivity].
  Qed.
End Facts.

(** Real numbers: what LSTDM returns are the transition densities of the product states of the vectors as they were given. *)
Theorem C71_transition_densities : forall (K : star_ring) (P : model_space K) (half : K) (big nz : K -> bool) (pyset : list nat -> list nat) (ints : nat -> @fmats K) (ovlp : nat -> nat -> nat -> list (list K))
    (umat_root : nat -> list (nat * list (list K))) (Q : tix -> Prop) (size : nat) (at_ : tix -> nat),
  (forall v : K, sconj v = v) -> rotations_ok P umat_root ->
  proper P -> (forall f, f < m_nf P -> exact K (m_norb P) (m_vec P) (m_ne P) (m_nl P) f (ints f)) -> gram P ovlp -> set_like pyset ->
  sadd half half = s1 -> nz s0 = false -> (forall v, big v = false -> v = s0) ->
  (forall t, In t (w_tables P) -> collision_free (w_uroot P) t) ->
  (forall x, Q x -> tix_in (m_nf P) (m_norb P) x /\ at_ x < size) -> 0 < size ->
  exists T, make_stdm P half big nz pyset ints ovlp = Ok T /\
    forall stored, (forall A B x, Q x -> stored A B (at_ x) = T A B x) ->
    exists T', umat_loop (w_lroots P) (states_before (w_lroots P) (m_nroots P)) size (umat_items (m_nf P) umat_root) stored = Ok T' /\
      forall r e r' e' x, r < m_nroots P -> r' < m_nroots P -> in_range (dims_of (w_lroots P) r) e -> in_range (dims_of (w_lroots P) r') e' -> Q x ->
        T' (states_before (w_lroots P) r + colmajor (dims_of (w_lroots P) r) e) (states_before (w_lroots P) r' + colmajor (dims_of (w_lroots P) r') e') (at_ x) =
        inner K (2 * norb (m_nf P) (m_norb P)) (given P umat_root r e) (gops K (m_nf P) (m_norb P) (xops x) (given P umat_root r' e')).
Proof.
  intros K P half big nz pyset ints ovlp um Q size at_ Hre Ho Pp Hex Hg Hset Hhalf Hnz Hbig Hcf HQ Hs.
  destruct (C65_transition_densities K P half big nz pyset ints ovlp Pp Hex Hg Hset Hhalf Hnz Hbig ltac:(intros v; now rewrite Hre) Hcf) as (T & E & V). exists T. split; [exact E|]. intros stored Hst.
  destruct (loop_original (m_nf P) (m_norb P) (w_lroots P) (w_len' P) (states_before (w_lroots P) (m_nroots P)) size ltac:(now rewrite (w_hd P Pp)) Hs (count_pos P Pp) um stored (rot_ok P Pp um Ho)) as (T' & E' & V'). exists T'. split; [exact E'|].
  intros r e r' e' x Lr Lr' R R' Hx. destruct (HQ x Hx) as [Hx1 Hx2]. pose proof (form_of (K := K) (2 * norb (m_nf P) (m_norb P)) _ (lin_gops (m_nf P) (m_norb P) (xops x))) as HL.
  unfold holds in V'. rewrite (w_hd P Pp) in V'. rewrite (V' _ (at_ x) (kept P) HL Hx2) by (first [assumption|intros; rewrite Hst by exact Hx; now apply V]).
  apply HL; intros d; [now apply real_given|reflexivity].
Qed.
Print Assumptions C71_transition_densities.

(** The Hamiltonian and the squared spin. *)
Theorem C71_hamiltonian : forall (K : star_ring) (P : model_space K) (half : K) (big : K -> bool) (pyset : list nat -> list nat) (ints : nat -> @fmats K) (ovlp : nat -> nat -> nat -> list (list K))
    (hash : list Z -> Z) (h1 : nat -> nat * nat -> nat * nat -> K) (h2 : nat * nat -> nat * nat -> nat * nat -> nat * nat -> K) (umat_root : nat -> list (nat * list (list K))),
  (forall v : K, sconj v = v) -> rotations_ok P umat_root ->
  proper P -> (forall f, f < m_nf P -> exact K (m_norb P) (m_vec P) (m_ne P) (m_nl P) f (ints f)) -> gram P ovlp -> set_like pyset ->
  sadd half half = s1 -> (forall v, big v = false -> v = s0) ->
  (forall t, In t (w_tables P) -> collision_free (w_uroot P) t) -> hash_injective P hash ->
  (forall s p q, h1 s p q = h1 s q p) -> symmetric2 h2 ->
  exists ham s2 ham' s2', make_ham P half big pyset ints ovlp hash h1 h2 = Ok (ham, s2) /\
    umat_matrix (w_lroots P) (states_before (w_lroots P) (m_nroots P)) (umat_items (m_nf P) umat_root) ham = Ok ham' /\
    umat_matrix (w_lroots P) (states_before (w_lroots P) (m_nroots P)) (umat_items (m_nf P) umat_root) s2 = Ok s2' /\
    forall r e r' e', r < m_nroots P -> r' < m_nroots P -> in_range (dims_of (w_lroots P) r) e -> in_range (dims_of (w_lroots P) r') e' ->
      let A := states_before (w_lroots P) r + colmajor (dims_of (w_lroots P) r) e in
      let B := states_before (w_lroots P) r' + colmajor (dims_of (w_lroots P) r') e' in
      let element O := inner K (2 * norb (m_nf P) (m_norb P)) (given P umat_root r e) (O (given P umat_root r' e')) in
      ham' A B = element (hamiltonian K (m_nf P) (m_norb P) half (fun dn p q => h1 (if dn then 1 else 0) p q) h2) /\
      s2' A B = element (s_squared K (m_nf P) (m_norb P) half).
Proof.
  intros K P half big pyset ints ovlp hash h1 h2 um Hre Ho Pp Hex Hg Hset Hhalf Hbig Hcf Hh H1 H2.
  assert (Hbc : forall v, big (sconj v) = big v) by (intros v; now rewrite Hre).
  destruct (C68_hamiltonian_real K P half big pyset ints ovlp hash h1 h2 Pp Hex Hg Hset Hhalf Hbig Hbc Hcf Hh ltac:(intros; split; [apply Hre|apply H1]) H2) as (ham & s2 & E & V).
  destruct (C68_spin_squared K P half big pyset ints ovlp hash h1 h2 Pp Hex Hg Hset Hhalf Hbig Hre Hcf Hh H2) as (ham0 & s20 & E0 & V0). rewrite E in E0. injection E0 as <- <-.
  destruct (matrix_given P Pp um ham _ Ho (form_of (K := K) (2 * norb (m_nf P) (m_norb P)) _ (lin_ham (m_nf P) (m_norb P) half (fun dn p q => h1 (if dn then 1 else 0) p q) h2)) Hre V) as (ham' & Eh & Vh).
  destruct (matrix_given P Pp um s2 _ Ho (form_of (K := K) (2 * norb (m_nf P) (m_norb P)) _ (lin_s2 (m_nf P) (m_norb P) half)) Hre V0) as (s2' & Es & Vs).
  exists ham, s2, ham', s2'. split; [exact E|]. split; [exact Eh|]. split; [exact Es|]. intros r e r' e' Lr Lr' R R'. cbn zeta. split; [now apply Vh|now apply Vs].
Qed.
Print Assumptions C71_hamiltonian.

(** The overlap, also of a selection of rootspaces. *)
Section Selection.
  Context {K : star_ring}.
  Add Ring Kring2 : (sring K).
  Variables (P : model_space K) (um : nat -> list (nat * list (list K))) (rootidx : option (list nat)).
  Hypothesis Ho : rotations_ok P um.
  Hypothesis Hpos : forall f r, f < m_nf P -> r < m_nroots P -> 0 < m_nl P f (m_ur P f r).
  Hypothesis Ha : ask_ok P rootidx.
  Let chosen_vec (f pos i : nat) : vec K := kept P f (nth pos (asked P rootidx) 0) i.
  Lemma chosen_original f pos i d : pos < length (asked P rootidx) -> original chosen_vec (at_positions um rootidx) f pos i d = original (kept P) um f (nth pos (asked P rootidx) 0) i d.
  Proof.
    intros Hp. unfold original. destruct rootidx as [l|] eqn:Er.
    - rewrite find_positions by exact Hp. cbn [asked]. destruct (find _ (um f)) as [it|]; reflexivity.
    - cbn [at_positions]. unfold chosen_vec. cbn [asked] in *. rewrite seq_length in Hp. rewrite seq_nth by exact Hp. reflexivity.
  Qed.
  Lemma chosen_ok : 0 < m_nf P -> umat_ok (m_nf P) (asked_lroots P rootidx) (at_positions um rootidx).
  Proof.
    intros Hn. assert (Hd : length (hd [] (asked_lroots P rootidx)) = length (asked P rootidx)) by (unfold asked_lroots; destruct (m_nf P); [lia|]; cbn [seq map hd]; now rewrite map_length).
    assert (D : forall f pos, f < m_nf P -> pos < length (asked P rootidx) -> nth f (dims_of (asked_lroots P rootidx) pos) 0 = m_nl P f (m_ur P f (nth pos (asked P rootidx) 0))).
    { intros f pos Hf Hp. unfold dims_of, asked_lroots. rewrite map_map, nth_map_seq by exact Hf. rewrite (nth_indep _ 0 ((fun r => m_nl P f (m_ur P f r)) 0)) by (rewrite map_length; exact Hp). exact (map_nth (fun r => m_nl P f (m_ur P f r)) (asked P rootidx) 0 pos). }
    intros f Hf. destruct (Ho f Hf) as [N A]. split; [destruct rootidx; [apply positions_nodup|exact N]|]. intros pos u I.
    assert (B : pos < length (asked P rootidx) /\ In (nth pos (asked P rootidx) 0, u) (um f)).
    { destruct rootidx as [l|]; [apply positions_in in I; exact I|]. cbn [asked at_positions] in *. destruct (A pos u I) as (A1 & _). rewrite seq_length. split; [exact A1|]. rewrite seq_nth by exact A1. exact I. }
    destruct B as [B1 B2]. destruct (A _ u B2) as (A1 & A2 & A3). rewrite Hd, D by assumption. split; [exact B1|]. split; [now apply Hpos|]. split; assumption.
  Qed.
End Selection.
Definition rotated_ovlp {K : star_ring} (P : model_space K) (half : K) (ovlp : nat -> nat -> nat -> list (list K)) (umat_root : nat -> list (nat * list (list K))) (rootidx : option (list nat)) : res (nat * (nat -> nat -> K)) :=
  do nM <- w_ovlp P half ovlp rootidx ;;
  do M' <- umat_matrix (asked_lroots P rootidx) (fst nM) (umat_chosen (m_nf P) umat_root rootidx) (snd nM) ;;
  Ok (fst nM, M').
Theorem C71_overlap : forall (K : star_ring) (P : model_space K) (half : K) (ovlp : nat -> nat -> nat -> list (list K)) (umat_root : nat -> list (nat * list (list K))) (rootidx : option (list nat)),
  (forall v : K, sconj v = v) -> rotations_ok P umat_root -> (forall f r, f < m_nf P -> r < m_nroots P -> 0 < m_nl P f (m_ur P f r)) ->
  electrons_ok P -> gram P ovlp -> sadd half half = s1 -> ask_ok P rootidx ->
  exists M, rotated_ovlp P half ovlp umat_root rootidx = Ok (states_before (asked_lroots P rootidx) (length (asked P rootidx)), M) /\
    forall i e j e', i < length (asked P rootidx) -> j < length (asked P rootidx) -> in_range (dims_of (asked_lroots P rootidx) i) e -> in_range (dims_of (asked_lroots P rootidx) j) e' ->
      M (states_before (asked_lroots P rootidx) i + colmajor (dims_of (asked_lroots P rootidx) i) e) (states_before (asked_lroots P rootidx) j + colmajor (dims_of (asked_lroots P rootidx) j) e') =
      inner K (2 * norb (m_nf P) (m_norb P)) (given P umat_root (nth i (asked P rootidx) 0) e) (given P umat_root (nth j (asked P rootidx) 0) e').
Proof.
  intros K P half ovlp um rootidx Hre Ho Hpos He Hg Hh Ha. pose proof He as (Hn & Hr & _).
  destruct (C69_overlap_real K P half ovlp rootidx Hre He Hg Hh Ha) as (M & E & V). unfold rotated_ovlp. rewrite E. cbn [bind fst snd]. unfold umat_matrix. rewrite chosen_items.
  set (lr := asked_lroots P rootidx) in *. set (sel := asked P rootidx) in *.
  assert (Hd : length (hd [] lr) = length sel) by (unfold lr, asked_lroots; destruct (m_nf P); [lia|]; cbn [seq map hd]; now rewrite map_length).
  assert (Hl : length lr = m_nf P) by (unfold lr, asked_lroots; now rewrite map_length, seq_length).
  assert (Hs : 0 < length sel) by (destruct Ha as [A _]; fold sel in A; destruct sel; [contradiction|cbn; lia]).
  assert (Hc : 0 < states_before lr (length sel)).
  { apply (Nat.lt_le_trans _ (states_before lr 1)); [|apply states_mono; lia]. rewrite states_S. cbn.
    assert (G : forall q, Forall (fun row => 0 < nth 0 row 0) q -> 0 < prodN (column q 0)) by (induction 1 as [|row q Hr0 _ IH]; cbn; [lia|]; apply Nat.mul_pos_pos; assumption).
    apply G. apply Forall_forall. intros row I. unfold lr, asked_lroots in I. apply in_map_iff in I as (f & <- & I). apply in_seq in I. fold sel. destruct Ha as (_ & _ & Ha). fold sel in Ha. destruct sel as [|r0 q]; [cbn in Hs; lia|]. cbn [map nth]. inversion Ha; subst. apply Hpos; lia. }
  destruct (loop_original (m_nf P) (m_norb P) lr Hl (states_before lr (length sel)) 1 ltac:(now rewrite Hd) ltac:(lia) Hc (at_positions um rootidx) (fun A B _ => M A B) (chosen_ok P um rootidx Ho Hpos Ha Hn)) as (T' & E' & V').
  rewrite E'. cbn [bind]. eexists. split; [reflexivity|]. intros i e j e' Li Lj R R'. cbn beta.
  pose proof (form_of (K := K) (2 * norb (m_nf P) (m_norb P)) (fun v => v) lin_id) as HL. unfold holds in V'. rewrite Hd in V'.
  rewrite (V' _ 0 (fun f pos => kept P f (nth pos sel 0)) HL ltac:(lia) V i e j e' Li Lj R R').
  assert (St : forall pos g, pos < length sel -> forall d, prod_state (m_nf P) (m_norb P) (original (fun f pos => kept P f (nth pos sel 0)) (at_positions um rootidx)) pos g d = given P um (nth pos sel 0) g d).
  { intros pos g Hp d. unfold given, prod_state, las_state, LprodSpec.bprod. generalize (seq 0 (m_nf P)). induction l as [|f q IH]; [reflexivity|]. cbn [fold_right]. rewrite IH. f_equal. apply (chosen_original P um rootidx); assumption. }
  assert (Sc : forall f, conjugate (at_positions um rootidx) f = at_positions um rootidx f) by (intros f; now apply conj_real).
  apply HL; intros d; [|now apply St]. rewrite <- St by exact Li. unfold prod_state, las_state, LprodSpec.bprod. generalize (seq 0 (m_nf P)). induction l as [|f q IH]; [reflexivity|]. cbn [fold_right]. rewrite IH. f_equal. unfold original. now rewrite Sc.
Qed.
Print Assumptions C71_overlap.

(** The density matrices: the SI vectors are rotated instead. *)
Definition combine_given {K : star_ring} (P : model_space K) (umat_root : nat -> list (nat * list (list K))) (l : list (nat * list nat)) (c : list K) : vec K := fun d =>
  bsum l (fun a => smul (nth (states_before (w_lroots P) (fst a) + colmajor (dims_of (w_lroots P) (fst a)) (snd a)) c s0) (given P umat_root (fst a) (snd a) d)).
Section SiFacts.
  Context {K : star_ring}.
  Lemma si_given (P : model_space K) um l si : proper P -> rotations_ok P um -> all_states P l -> si <> [] -> (forall v : K, sconj v = v) ->
    exists si', rotate_si (w_lroots P) (states_before (w_lroots P) (m_nroots P)) (umat_items (m_nf P) um) si = Ok si' /\ columns P si' /\ length si' = length si /\
      forall root d, root < length si -> combine_states P l (nth root si' []) d = combine_given P um l (nth root si []) d.
  Proof.
    intros Pp Ho [Nl Hl] Hs Hre. unfold rotate_si. assert (Hp : 0 < length si) by (destruct si; [contradiction|cbn; lia]).
    destruct (si_original (m_nf P) (m_norb P) (w_lroots P) (w_len' P) l Nl ltac:(rewrite (w_hd P Pp); exact Hl) (length si) Hp um (fun A root => nth A (nth root si []) s0) (rot_ok P Pp um Ho)) as (t' & E & V).
    rewrite E. cbn [bind]. eexists. split; [reflexivity|]. split; [|split].
    - apply Forall_forall. intros c I. apply in_map_iff in I as (root & <- & _). now rewrite map_length, seq_length.
    - now rewrite map_length, seq_length.
    - intros root d Hroot. specialize (V (kept P) root d Hroot). unfold weighted in V. unfold combine_states, combine_given.
      transitivity (bsum l (fun a => smul (t' (states_before (w_lroots P) (fst a) + colmajor (dims_of (w_lroots P) (fst a)) (snd a)) root) (prod_state (m_nf P) (m_norb P) (kept P) (fst a) (snd a) d))).
      + apply bsum_ext. intros [r e] I. cbn [fst snd]. apply Hl in I as [I R]. f_equal. rewrite nth_map_seq by exact Hroot. apply (nth_map_seq (fun A => t' A root)).
        pose proof (colmajor_lt _ _ R). pose proof (states_mono (w_lroots P) (S r) (m_nroots P) I) as M. rewrite states_S in M. change (column (w_lroots P) r) with (dims_of (w_lroots P) r) in M. lia.
      + rewrite V. apply bsum_ext. intros a _. f_equal. now apply real_given.
  Qed.
End SiFacts.
Theorem C71_density_matrices : forall (K : star_ring) (P : model_space K) (half : K) (big nz : K -> bool) (pyset : list nat -> list nat) (ints : nat -> @fmats K) (ovlp : nat -> nat -> nat -> list (list K))
    (umat_root : nat -> list (nat * list (list K))) (si_bra si_ket : list (list K)) (hermi : bool) (l : list (nat * list nat)),
  (forall v : K, sconj v = v) -> rotations_ok P umat_root ->
  proper P -> (forall f, f < m_nf P -> exact K (m_norb P) (m_vec P) (m_ne P) (m_nl P) f (ints f)) -> gram P ovlp -> set_like pyset ->
  sadd half half = s1 -> nz s0 = false -> (forall v, big v = false -> v = s0) ->
  (forall t, In t (w_tables P) -> collision_free (w_uroot P) t) ->
  length si_ket = length si_bra -> si_bra <> [] -> (hermi = true -> si_bra = si_ket) -> all_states P l ->
  exists sb sk R, rotate_si (w_lroots P) (states_before (w_lroots P) (m_nroots P)) (umat_items (m_nf P) umat_root) si_bra = Ok sb /\
    rotate_si (w_lroots P) (states_before (w_lroots P) (m_nroots P)) (umat_items (m_nf P) umat_root) si_ket = Ok sk /\
    make_rdm P half big pyset ints ovlp sb sk hermi = Ok R /\
    forall root x, root < length si_bra -> tix_in (m_nf P) (m_norb P) x ->
      R root x = inner K (2 * norb (m_nf P) (m_norb P)) (combine_given P umat_root l (nth root si_bra [])) (gops K (m_nf P) (m_norb P) (xops x) (combine_given P umat_root l (nth root si_ket []))).
Proof.
  intros K P half big nz pyset ints ovlp um si_bra si_ket hermi l Hre Ho Pp Hex Hg Hset Hhalf Hnz Hbig Hcf Hl Hn Hh Al.
  assert (Hk : si_ket <> []) by (destruct si_bra; [contradiction|]; destruct si_ket; [discriminate|intros Z; discriminate]).
  destruct (si_given P um l si_bra Pp Ho Al Hn Hre) as (sb & Eb & Cb & Lb & Vb). destruct (si_given P um l si_ket Pp Ho Al Hk Hre) as (sk & Ek & Ck & Lk & Vk).
  assert (Nb : sb <> []) by (destruct si_bra; [contradiction|]; destruct sb; [discriminate|intros Z; discriminate]).
  destruct (C70_density_matrices K P half big nz pyset ints ovlp sb sk hermi l Pp Hex Hg Hset Hhalf Hnz Hbig ltac:(intros v; now rewrite Hre) Hcf Cb Ck ltac:(congruence) Nb ltac:(intros Z; specialize (Hh Z); subst si_ket; congruence) Al) as (R & ER & VR).
  exists sb, sk, R. split; [exact Eb|]. split; [exact Ek|]. split; [exact ER|]. intros root x Hroot Hx. rewrite (VR root ltac:(lia) x Hx).
  pose proof (form_of (K := K) (2 * norb (m_nf P) (m_norb P)) _ (lin_gops (m_nf P) (m_norb P) (xops x))) as HL. apply HL; intros d; [now apply Vb|apply Vk; lia].
Qed.
Print Assumptions C71_density_matrices.

(** Matrices that are not unitary, so that every index matters: the overlap of the rootspaces of C69 taken as 2, 0, and the density
    matrices of C70. *)
Definition u_mats (f : nat) : list (nat * list (list Qs)) := if f =? 0 then [(0, [[zq 1; zq 2]; [zq (-3); zq 1]]); (2, [[zq 5]])] else if f =? 1 then [(0, [[zq 7]])] else [].
Definition u_given : list (list Q) :=
  let l := [(2, [0; 0]); (0, [0; 0]); (0, [1; 0])] in
  map (fun a => map (fun b => this (inner Qs 6 (given o_P u_mats (fst a) (snd a)) (given o_P u_mats (fst b) (snd b)))) l) l.
Definition u_run (hermi : bool) (sb sk : list (list Qs)) : option (list Q) :=
  match rotate_si (w_lroots y_P) 6 (umat_items 3 u_mats) sb, rotate_si (w_lroots y_P) 6 (umat_items 3 u_mats) sk with
  | Ok sb', Ok sk' => match make_rdm y_P hq x_big x_set (table_of y_P) y_ovlp sb' sk' hermi with Raise _ => None | Ok R => Some (map (fun x => this (R 1 x)) y_ask) end
  | _, _ => None
  end.
Definition u_elements (sb sk : list (list Qs)) : list Q :=
  map (fun x => this (inner Qs 8 (combine_given y_P u_mats y_states (nth 1 sb [])) (gops Qs 3 y_norb (xops x) (combine_given y_P u_mats y_states (nth 1 sk []))))) y_ask.
Example C71_example :
  o_show (rotated_ovlp o_P hq o_ovlp u_mats (Some [2; 0])) = Some (3, [[15625; -19250; 71750]; [-19250; 24500; -88200]; [71750; -88200; 329525]]%Q) /\
  u_given = [[15625; -19250; 71750]; [-19250; 24500; -88200]; [71750; -88200; 329525]]%Q /\
  u_run false y_bra y_ket = Some [26250; 1250; 4800; 1721300]%Q /\ u_elements y_bra y_ket = [26250; 1250; 4800; 1721300]%Q.
Proof. vm_compute. repeat split; reflexivity. Qed.

(** Complex CI vectors: one fragment with one orbital; the rootspaces hold |d> and i|d>, so that one vector is kept and the second
    rootspace is rotated with the 1 x 1 matrix i.  The norm of the second state comes out as -1. *)
Definition v_vec (f a i : nat) : vec Cq := fun d => if (d =? 2)%N then cz 1 0 else cz 0 0.
Definition v_P : model_space Cq := mkMS 1 (fun _ => 1) v_vec (fun _ _ => (1, 0)) (fun _ _ => 1) (fun _ _ => 0) 2.
Definition v_ovlp (f b k : nat) : list (list Cq) := [[cz 1 0]].
Definition v_mats (f : nat) : list (nat * list (list Cq)) := [(1, [[cz 0 1]])].
Lemma v_ok : electrons_ok v_P.
Proof.
  split; [cbn; lia|]. split; [cbn; lia|]. intros f a i _ _ d _. cbn [v_P m_vec m_norb m_ne]. unfold v_vec. destruct (N.eqb_spec d 2) as [->|]; [right; vm_compute; split; reflexivity|left; reflexivity].
Qed.
Lemma v_gram : gram v_P v_ovlp.
Proof.
  intros f b k Hf Hb Hk. cbn [v_P m_nf m_nroots m_nl m_ur m_norb m_vec] in *. split; [split; [reflexivity|intros row [<-|[]]; reflexivity]|]. intros i j Hi Hj. destruct i, j; try lia. apply ceq_ok. vm_compute. reflexivity.
Qed.
Lemma v_rot : rotations_ok v_P v_mats.
Proof.
  intros f _. split; [repeat constructor; intros []|]. intros r u [E|[]]. injection E as <- <-. cbn. repeat split; try lia. repeat constructor.
Qed.
Theorem C71_complex_overlap_refuted : exists (P : model_space Cq) (ovlp : nat -> nat -> nat -> list (list Cq)) (umat_root : nat -> list (nat * list (list Cq))) (n : nat) (M : nat -> nat -> Cq),
  electrons_ok P /\ gram P ovlp /\ sadd ch ch = s1 /\ rotations_ok P umat_root /\ rotated_ovlp P ch ovlp umat_root None = Ok (n, M) /\ m_nroots P = 2 /\
  dims_of (w_lroots P) 0 = [1] /\ dims_of (w_lroots P) 1 = [1] /\
  M 1 1 = cz (-1) 0 /\ inner Cq (2 * norb (m_nf P) (m_norb P)) (given P umat_root 1 [0]) (given P umat_root 1 [0]) = cz 1 0 /\ cz (-1) 0 <> cz 1 0.
Proof.
  pose (X := rotated_ovlp v_P ch v_ovlp v_mats None).
  assert (T : match X with Ok (n, m) => ceq (m 1 1) (cz (-1) 0) | Raise _ => false end = true) by (vm_compute; reflexivity).
  destruct X as [[n m]|x] eqn:E; [|discriminate]. exists v_P, v_ovlp, v_mats, n, m. split; [exact v_ok|]. split; [exact v_gram|]. split; [apply ceq_ok; vm_compute; reflexivity|]. split; [exact v_rot|]. split; [exact E|].
  split; [reflexivity|]. split; [reflexivity|]. split; [reflexivity|]. split; [apply ceq_ok; exact T|]. split; [apply ceq_ok; vm_compute; reflexivity|].
  intros Q. apply (f_equal (fun v => ceq v (cz 1 0))) in Q. vm_compute in Q. discriminate.
Qed.
Print Assumptions C71_complex_overlap_refuted.

(** The SI vectors are rotated with the conjugate: the transition density <1|p'p|2> = i comes out as -i. *)
Definition v_si (k : nat) : list (list Cq) := if k =? 0 then [[cz 1 0; cz 0 0]] else [[cz 0 0; cz 1 0]].
Lemma v_free : (forall t, In t (w_tables v_P) -> collision_free (w_uroot v_P) t) /\ hash_injective v_P y_hash.
Proof. apply free_check_ok. vm_compute. reflexivity. Qed.
Theorem C71_complex_density_refuted : exists (P : model_space Cq) (big : Cq -> bool) (pyset : list nat -> list nat) (ovlp : nat -> nat -> nat -> list (list Cq)) (umat_root : nat -> list (nat * list (list Cq)))
    (si_bra si_ket sb sk : list (list Cq)) (R : nat -> tix -> Cq) (l : list (nat * list nat)) (x : tix),
  proper P /\ gram P ovlp /\ set_like pyset /\ (forall v, big v = false -> v = s0) /\ (forall v, big (sconj v) = big v) /\ rotations_ok P umat_root /\
  (forall t, In t (w_tables P) -> collision_free (w_uroot P) t) /\ columns P si_bra /\ columns P si_ket /\ length si_bra = 1 /\ length si_ket = 1 /\ all_states P l /\
  rotate_si (w_lroots P) (states_before (w_lroots P) (m_nroots P)) (umat_items (m_nf P) umat_root) si_bra = Ok sb /\
  rotate_si (w_lroots P) (states_before (w_lroots P) (m_nroots P)) (umat_items (m_nf P) umat_root) si_ket = Ok sk /\
  make_rdm P ch big pyset (table_of P) ovlp sb sk false = Ok R /\ tix_in (m_nf P) (m_norb P) x /\
  R 0 x = cz 0 (-1) /\ inner Cq (2 * norb (m_nf P) (m_norb P)) (combine_given P umat_root l (nth 0 si_bra [])) (gops Cq (m_nf P) (m_norb P) (xops x) (combine_given P umat_root l (nth 0 si_ket []))) = cz 0 1 /\ cz 0 (-1) <> cz 0 1.
Proof.
  pose (B := rotate_si (w_lroots v_P) 2 (umat_items 1 v_mats) (v_si 0)). pose (S := rotate_si (w_lroots v_P) 2 (umat_items 1 v_mats) (v_si 1)).
  assert (T : match B, S with Ok sb, Ok sk => match make_rdm v_P ch cbig c_set (table_of v_P) v_ovlp sb sk false with Ok R => ceq (R 0 (X1 0 (0, 0) (0, 0))) (cz 0 (-1)) | Raise _ => false end | _, _ => false end = true) by (vm_compute; reflexivity).
  destruct B as [sb|] eqn:Eb; [|discriminate]. destruct S as [sk|] eqn:Es; [|discriminate]. destruct (make_rdm v_P ch cbig c_set (table_of v_P) v_ovlp sb sk false) as [R|] eqn:ER; [|discriminate].
  exists v_P, cbig, c_set, v_ovlp, v_mats, (v_si 0), (v_si 1), sb, sk, R, [(0, [0]); (1, [0])], (X1 0 (0, 0) (0, 0)).
  split.
  { split; [cbn; lia|]. split; [cbn; lia|]. split; [intros; cbn; lia|]. split; [intros f a Hf; cbn; lia|]. intros f a i Hf Hi. apply v_ok; assumption. }
  split; [exact v_gram|]. split; [exact c_set_like|]. split; [exact cbig_0|]. split; [exact cbig_conj|]. split; [exact v_rot|].
  split; [exact (proj1 v_free)|].
  split; [repeat constructor|]. split; [repeat constructor|]. split; [reflexivity|]. split; [reflexivity|].
  split.
  { clear Eb Es ER T. split; [constructor; [intros [I|[]]; discriminate I|constructor; [intros []|constructor]]|]. intros r e. cbn [v_P m_nroots]. split.
    - intros [I|[I|[]]]; injection I as <- <-; (split; [lia|]); repeat constructor.
    - intros [Hr H]. destruct r as [|[|r]]; [| |lia]; cbn in H; inversion H as [|a b c d H1 H2]; subst; inversion H2; subst; (destruct b as [|b]; [|lia]); [now left|right; now left]. }
  split; [exact Eb|]. split; [exact Es|]. split; [exact ER|]. split; [cbn; unfold orb_in; cbn; lia|]. split; [apply ceq_ok; exact T|]. split; [apply ceq_ok; vm_compute; reflexivity|].
  intros Q. apply (f_equal (fun v => ceq v (cz 0 (-1)))) in Q. vm_compute in Q. discriminate.
Qed.
Print Assumptions C71_complex_density_refuted.
