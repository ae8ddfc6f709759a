(** Property C66: the arrays that make_stdm12s returns. *)
From Coq Require Import List NArith ZArith Arith Bool Lia Sorting.Permutation QArith Qcanon.
From Verif Require Import Base BaseFacts Star AddrModel AddrSpec AddrProofs SCModel SCBlocks FockSpec LprodSpec ExcModel UexcModel PropUexc.
From Verif Require Import StdmModel StdmFacts CrunchModel CrunchSpec CrunchEnd PropCrunch HalfModel HalfFacts HalfDms PropHalf PropStdm ScatterModel ScatterC ScatterFacts ScatterLoop ScatterSupp.
Import ListNotations.
Close Scope Qc_scope. Close Scope Q_scope.
Local Open Scope nat_scope.

Section Wire12.
  Context {K : star_ring}.
  Variables (sched : nat -> list nat) (nthreads : nat) (P : model_space K).
  Definition w_nlas : list nat := map (m_norb P) (seq 0 (m_nf P)).
  Variables (half : K) (big nz : K -> bool) (pyset : list nat -> list nat) (ints : nat -> @fmats K) (ovlp : nat -> nat -> nat -> list (list K)).
  (** kernel and make_stdm12s, lines 1099-1116, 1158-1232, when there is no umat_root *)
  Definition stdm12s := do rf <- get_rootaddr_fragaddr (w_lroots P) ;;
    let ud := mask_exc_tables (w_uroot P) true (fun _ => true) (w_tables P) in
    make_stdm12s sched w_nlas nthreads half big pyset (w_lroots P) ovlp (spinK K (w_nelec P)) (fragK K (w_nelec_rf P)) (fst rf) (snd rf) (crunch_D (m_norb P) ints (m_ur P) (w_nelec_rf P) nz) (snd ud) (fst ud).
End Wire12.
Definition stdm12s_of_ci {K : star_ring} (sched : nat -> list nat) (nthreads : nat) (C : ci_set K) (half : K) (small big nz : K -> bool) (pyset : list nat -> list nat) :=
  do l <- tables C small ;; stdm12s sched nthreads (space C) half big nz pyset (fun f => nth f l (mkFmats (fun _ _ _ => None) (fun _ _ _ => None) (fun _ _ _ => None) (fun _ _ => None) (fun _ _ => None) (fun _ _ => None))) (frag_ovlp C).

(** ** What is expected *)
(** Spin orbital of orbital j with spin s (0: up, 1: down) among N orbitals *)
Definition spo (N s j : nat) : nat := if s =? 0 then N + j else j.
(** <bra| q'(s) p(s) |ket> and <bra| p'(s) r'(t) u(t) q(s) |ket> *)
Definition dens1 {K : star_ring} (N : nat) (bra ket : vec K) (s p q : nat) : K :=
  inner K (2 * N) bra (cre K (2 * N) (spo N s q) (ann K (2 * N) (spo N s p) ket)).
Definition dens2 {K : star_ring} (N : nat) (bra ket : vec K) (s p q t r u : nat) : K :=
  inner K (2 * N) bra (cre K (2 * N) (spo N s p) (cre K (2 * N) (spo N t r) (ann K (2 * N) (spo N t u) (ann K (2 * N) (spo N s q) ket)))).
(** number of a product state: states of earlier rootspaces come first; in a rootspace the first fragment runs fastest *)
Definition number {K : star_ring} (P : model_space K) (r : nat) (e : list nat) : nat := states_before (w_lroots P) r + colmajor (dims_of (w_lroots P) r) e.

Section Geo.
  Context {K : star_ring}.
  Variable P : model_space K.
  Lemma w_off f : f <= m_nf P -> list_sum (firstn f (w_nlas P)) = offn (m_norb P) f.
  Proof. intros H. unfold w_nlas, offn. rewrite firstn_map. f_equal. f_equal. replace (m_nf P) with (f + (m_nf P - f)) by lia. rewrite seq_app, firstn_app, seq_length, Nat.sub_diag, app_nil_r. rewrite firstn_all2; [reflexivity|]. rewrite seq_length. lia. Qed.
  Lemma w_tot : norb_tot (w_nlas P) = norb (m_nf P) (m_norb P).
  Proof. reflexivity. Qed.
  Lemma w_loc p : p < norb (m_nf P) (m_norb P) -> orb_in (m_nf P) (m_norb P) (locate (w_nlas P) p) /\
    forall s, s < 2 -> gorb (m_nf P) (m_norb P) (fst (locate (w_nlas P) p)) (down s) (snd (locate (w_nlas P) p)) = spo (norb (m_nf P) (m_norb P)) s p.
  Proof.
    intros H. destruct (locate_spec (w_nlas P) p H) as (A & B & C). assert (L : length (w_nlas P) = m_nf P) by (unfold w_nlas; now rewrite map_length, seq_length).
    rewrite L in A. rewrite w_off in C by lia. set (x := locate (w_nlas P) p) in *. clearbody x. unfold w_nlas in B. rewrite (nth_map_seq0 _ (m_nf P) _) in B by exact A. split; [split; assumption|].
    intros s Hs. unfold gorb, spo, down. destruct s as [|[|s]]; [| |lia]; cbn [Nat.eqb negb]; lia.
  Qed.
End Geo.

(** ** The arrays *)
(** Every entry of the two arrays, for every pair of product states, every spin and every orbital, is the matrix element of the density
    operator, whatever the number of threads and whichever order the iterations of the parallel loops run in, if the arrays of
    N orbitals are small enough for C's int: 4 N^4 < 2^31. *)
Theorem C66_stdm12s : forall (K : star_ring) (P : model_space K) (half : K) (big nz : K -> bool) (pyset : list nat -> list nat) (ints : nat -> @fmats K) (ovlp : nat -> nat -> nat -> list (list K)) (sched : nat -> list nat) (nthreads : nat),
  proper P -> (forall f, f < m_nf P -> exact K (m_norb P) (m_vec P) (m_ne P) (m_nl P) f (ints f)) -> gram P ovlp -> set_like pyset ->
  sadd half half = s1 -> nz s0 = false -> (forall v, big v = false -> v = s0) -> (forall v, big (sconj v) = big v) ->
  (forall t, In t (w_tables P) -> collision_free (w_uroot P) t) ->
  0 < nthreads -> (forall n, Permutation (sched n) (seq 0 n)) -> let N := norb (m_nf P) (m_norb P) in 0 < N -> (4 * Z.of_nat N ^ 4 < 2 ^ 31)%Z ->
  exists o1 o2, stdm12s sched nthreads P half big nz pyset ints ovlp = Ok (o1, o2) /\
    forall r e r' e', r < m_nroots P -> r' < m_nroots P -> in_range (dims_of (w_lroots P) r) e -> in_range (dims_of (w_lroots P) r') e' ->
      (forall s p q, s < 2 -> p < N -> q < N -> o1 (number P r e) s p q (number P r' e') = dens1 N (product P r e) (product P r' e') s p q) /\
      (forall s p q t v u, s < 2 -> t < 2 -> p < N -> q < N -> v < N -> u < N ->
        o2 (number P r e) s p q t v u (number P r' e') = dens2 N (product P r e) (product P r' e') s p q t v u).
Proof.
  intros K P half big nz pyset ints ovlp sched nthreads Pp Hex Hg Hset Hh Hnz Hb Hbc Hcf Hth Hsch N HN Hint.
  destruct (C65_transition_densities K P half big nz pyset ints ovlp Pp Hex Hg Hset Hh Hnz Hb Hbc Hcf) as (T & ET & VT).
  unfold make_stdm in ET. unfold stdm12s. destruct (get_rootaddr_fragaddr (w_lroots P)) as [rf|]; [|discriminate]. cbn [bind] in *. cbv zeta in ET.
  destruct (make_stdm12s_ok sched (w_nlas P) nthreads Hsch HN Hth Hint half big pyset (w_lroots P) ovlp (spinK K (w_nelec P)) (fragK K (w_nelec_rf P)) (fst rf) (snd rf)
    (crunch_D (m_norb P) ints (m_ur P) (w_nelec_rf P) nz) (snd (mask_exc_tables (w_uroot P) true (fun _ => true) (w_tables P))) (fst (mask_exc_tables (w_uroot P) true (fun _ => true) (w_tables P))) T) as (o1 & o2 & E & V1 & V2).
  - intros k l row El Il. split; [|intros bra ket; apply crunch_D_supported].
    unfold mask_exc_tables in El. cbn [fst] in El. rewrite map_map in El. rewrite nth_error_map in El. destruct (nth_error (w_tables P) k) as [t|] eqn:Et; [|discriminate]. cbn [option_map] in El.
    assert (El' : l = fst (find_unique_exc (w_uroot P) true (filter (fun _ => true) t))) by congruence. rewrite El' in Il. apply uexc_incl in Il. apply filter_In in Il as [Il _].
    destruct (row_pair (m_nf P) (m_nroots P) (w_nelec P) (w_lroots P) (w_len P) (w_scai P) (w_admissible P) (w_nodup P) (w_in P) k t row Et Il) as (_ & Hf & Hbr & Hk).
    destruct (C65_no_exception K P nz ints Pp Hex Hnz k t row [] [] Et Il) as (d & Ed); [|exact (crunch_length _ _ _ _ _ _ _ _ _ _ d Ed)].
    destruct Pp as (_ & _ & Hpos & _). intros f If. specialize (Hf f If). replace (nth f [] 0) with 0 by (now destruct f). split; now apply Hpos.
  - exact ET.
  - exists o1, o2. split; [exact E|]. intros r e r' e' Hr Hr' R R'. split.
    + intros s p q Hs Hp Hq. rewrite V1 by assumption. destruct (w_loc P p Hp) as [Ip Gp]. destruct (w_loc P q Hq) as [Iq Gq]. unfold number. rewrite VT by (first [assumption|split; [exact Hs|now split]]).
      unfold dens1. cbn [xops cr an gops fold_right field]. rewrite Gp, Gq by exact Hs. reflexivity.
    + intros s p q t v u Hs Ht Hp Hq Hv Hu. rewrite V2 by assumption. destruct (w_loc P p Hp) as [Ip Gp]. destruct (w_loc P q Hq) as [Iq Gq]. destruct (w_loc P v Hv) as [Iv Gv]. destruct (w_loc P u Hu) as [Iu Gu].
      unfold number. rewrite VT by (first [assumption|split; [lia|auto]]). unfold dens2. cbn [xops cr an gops fold_right field].
      replace ((2 * s + t) / 2) with s by (rewrite Nat.mul_comm, Nat.div_add_l by lia; rewrite (Nat.div_small t 2 Ht); lia).
      replace ((2 * s + t) mod 2) with t by (rewrite Nat.mul_comm, Nat.add_comm, Nat.mod_add by lia; now rewrite Nat.mod_small).
      rewrite (Gp s Hs), (Gq s Hs), (Gv t Ht), (Gu t Ht). reflexivity.
Qed.
Print Assumptions C66_stdm12s.

(** The same from CI arrays. *)
Theorem C66_stdm12s_of_ci : forall (K : star_ring) (C : ci_set K) (half : K) (small big nz : K -> bool) (pyset : list nat -> list nat) (sched : nat -> list nat) (nthreads : nat),
  (forall x : K, sconj x = x) -> ci_ok C -> small s0 = true -> set_like pyset ->
  sadd half half = s1 -> nz s0 = false -> (forall v, big v = false -> v = s0) ->
  (forall t, In t (w_tables (space C)) -> collision_free (w_uroot (space C)) t) ->
  0 < nthreads -> (forall n, Permutation (sched n) (seq 0 n)) -> let N := norb (c_nf C) (c_norb C) in 0 < N -> (4 * Z.of_nat N ^ 4 < 2 ^ 31)%Z ->
  exists o1 o2, stdm12s_of_ci sched nthreads C half small big nz pyset = Ok (o1, o2) /\
    forall r e r' e', r < c_nroots C -> r' < c_nroots C -> in_range (dims_of (w_lroots (space C)) r) e -> in_range (dims_of (w_lroots (space C)) r') e' ->
      let bra := product (space C) r e in let ket := product (space C) r' e' in
      (forall s p q, s < 2 -> p < N -> q < N -> o1 (number (space C) r e) s p q (number (space C) r' e') = dens1 N bra ket s p q) /\
      (forall s p q t v u, s < 2 -> t < 2 -> p < N -> q < N -> v < N -> u < N -> o2 (number (space C) r e) s p q t v u (number (space C) r' e') = dens2 N bra ket s p q t v u).
Proof.
  intros K C half small big nz pyset sched nthreads Hr (H8 & Hn & Hok & Hur) Hs Hset Hh Hnz Hb Hcf Hth Hsch N HN Hint. unfold stdm12s_of_ci, tables.
  destruct (mapM_all (frag_tables C small) (fun f M => exact K (c_norb C) (m_vec (space C)) (c_ne C) (c_nl C) f M) (seq 0 (c_nf C))) as (l & E & L & I).
  { intros f Hf. apply in_seq in Hf. apply C64_tables; auto. apply Hok. lia. }
  rewrite E. cbn [bind]. apply (C66_stdm12s K (space C)); auto.
  - split; [exact H8|]. split; [exact Hn|]. cbn [space m_nf m_nl m_ne m_norb m_vec m_ur m_nroots]. split; [|split].
    + intros f r Hf Hr'. apply (Hok f Hf). now apply Hur.
    + intros f a Hf Ha. apply (Hok f Hf). now apply (Hok f Hf).
    + intros f a i Hf Hi. apply civec_nelec.
  - intros f Hf. cbn [space m_nf m_norb m_ne m_nl] in *. rewrite seq_length in I. specialize (I f 0 (mkFmats (fun _ _ _ => None) (fun _ _ _ => None) (fun _ _ _ => None) (fun _ _ => None) (fun _ _ => None) (fun _ _ => None)) Hf). rewrite seq_nth in I by exact Hf. exact I.
  - apply C64_overlap.
  - intros v. now rewrite Hr.
Qed.
Print Assumptions C66_stdm12s_of_ci.

(** No two iterations of a parallel loop write to the same element, for the blocks that orbrange_env makes. *)
Theorem C66_no_race : forall (K : star_ring) (nlas inv : list nat) (nthreads : nat) (e : env), let N := norb_tot nlas in
  0 < N -> 0 < nthreads -> length inv <= 4 -> (4 * Z.of_nat N ^ 4 < 2 ^ 31)%Z -> orbrange_env nlas nthreads inv = Ok e ->
  let nsrc := Z.of_nat (e_nsrc e) in let nidx := Z.of_nat (length (e_lblk e)) in
  let iter1 src := put_SD1_iter (K := K) src 1 (Z.of_nat N) nsrc (zs (e_dblk e)) (zs (e_sblk e)) (zs (e_lblk e)) nidx in
  let iter2 src := put_SD2_iter (K := K) src 1 (Z.of_nat N) nsrc (zs (e_pdest e)) (zs (e_dblk e)) (zs (e_sblk e)) (zs (e_lblk e)) nidx in
  forall (src dest : mem) (i j : Z) (di dj : mem) (a : Z), i <> j ->
    ((0 <= i < 2 * nidx)%Z -> (0 <= j < 2 * nidx)%Z -> iter1 src i dest = Ok di -> iter1 src j dest = Ok dj -> di a = dest a \/ dj a = dest a) /\
    ((0 <= i < 4 * (nsrc * nsrc) * nidx)%Z -> (0 <= j < 4 * (nsrc * nsrc) * nidx)%Z -> iter2 src i dest = Ok di -> iter2 src j dest = Ok dj -> di a = dest a \/ dj a = dest a).
Proof.
  intros K nlas inv nthreads e N HN Hth Hi Hint E nsrc nidx iter1 iter2 src dest i j di dj a Ne.
  destruct (orbrange_ok nlas nthreads inv HN Hth Hi) as (e' & E' & E1 & E2 & E3 & E4 & E5 & E6). rewrite E in E'. injection E' as <-.
  unfold iter1, iter2, nsrc, nidx. rewrite E2, E3. split; intros Hi' Hj'.
  - replace i with (Z.of_nat (Z.to_nat i)) by lia. replace j with (Z.of_nat (Z.to_nat j)) by lia.
    apply (put_SD1_disjoint N (length (orbs nlas inv)) (opairs nlas inv) (e_dblk e) (e_sblk e) (e_lblk e) (opairs_lt nlas inv) (opairs_length nlas inv) (opairs_nodup nlas inv) E4 E5 (orbs_le nlas inv) E6 Hint); lia.
  - replace i with (Z.of_nat (Z.to_nat i)) by lia. replace j with (Z.of_nat (Z.to_nat j)) by lia.
    apply (put_SD2_disjoint N (length (orbs nlas inv)) (opairs nlas inv) (e_dblk e) (e_sblk e) (e_lblk e) (opairs_lt nlas inv) (opairs_length nlas inv) (opairs_nodup nlas inv) E4 E5 (orbs_le nlas inv) E6 Hint); lia.
Qed.
Print Assumptions C66_no_race.

(** Slices of the buffers by the ranges of fragments, in an environment with the fragments inv, hold the orbitals of the fragments
    and no others; the position in the slice is the number of the orbital in its fragment. *)
Theorem C66_slices : forall (K : star_ring) (nlas inv bs : list nat) (f g h i : nat) (a : @arr K) (d1 : D1 (K := K)) (d2 : D2 (K := K)),
  (forall x, In x [f; g; h; i] -> In x inv /\ x < length nlas) -> let nl := nlas_in nlas inv in let n := fun f => nth f nlas 0 in
  forall s p q r u, p < list_sum nl -> q < list_sum nl -> r < list_sum nl -> u < list_sum nl ->
    slice1 bs (get_range nl f) (get_range nl g) a (fun s p q => d1 s (locate nl p) (locate nl q)) s p q = set1 n bs f g a d1 s (locate nl p) (locate nl q) /\
    slice2 bs (get_range nl f) (get_range nl g) (get_range nl h) (get_range nl i) a (fun s p q r u => d2 s (locate nl p) (locate nl q) (locate nl r) (locate nl u)) s p q r u
    = set2 n bs f g h i a d2 s (locate nl p) (locate nl q) (locate nl r) (locate nl u) /\
    (exists k, nth_error (orbs nlas inv) p = Some k /\ locate nlas k = locate nl p).
Proof.
  intros K nlas inv bs f g h i a d1 d2 Hin nl n s p q r u Hp Hq Hr Hu.
  assert (G : forall x, In x [f; g; h; i] -> nth x nl 0 = n x).
  { intros x I. destruct (Hin x I) as [I1 I2]. unfold nl, nlas_in. rewrite (nth_map_seq0 _ (length nlas) x) by exact I2. now rewrite frag_in by exact I1. }
  split; [|split].
  - apply slice1_set1; try assumption; apply G; cbn; auto.
  - apply slice2_set2; try assumption; apply G; cbn; auto 6.
  - unfold nl in Hp. rewrite <- orbs_length in Hp. exists (nth p (orbs nlas inv) 0). split; [now apply nth_error_nth'|now apply orbs_nth].
Qed.
Print Assumptions C66_slices.

(** The product npdest*npdest is made in int: from 216 orbitals on it wraps, and the copy of a single element, for arrays of any
    length, fails an assertion. *)
Theorem C66_overflow_refuted : exists (ndest : Z) (dest src : mem (K := Qs)), (ndest = 216)%Z /\
  put_SD2 (fun n => seq 0 n) dest src 1 ndest 1 [0]%Z [0]%Z [0]%Z [1]%Z 1 = Raise AssertionError.
Proof. exists 216%Z, (fun _ => s0), (fun _ => s0). split; [reflexivity|]. vm_compute. reflexivity. Qed.
Print Assumptions C66_overflow_refuted.

(** The CI arrays of C64_example: four orbitals, of which the fragments own 0-1, 2 and 3; three threads; the loops run backwards. *)
Definition w_samples : list ((nat * nat) * list nat * Z) := [
  ((0, 0), [0; 1; 0], (16)%Z); ((0, 2), [0; 2; 1], (8)%Z); ((0, 0), [0; 0; 3; 0; 3; 1], (-16)%Z); ((2, 0), [0; 2; 3; 0; 3; 1], (-8)%Z)].
Example C66_example :
  map (fun inv => match orbrange_env [2; 1; 1] 3 inv with Ok e => (e_nlas e, e_pdest e, e_dblk e, e_sblk e, e_lblk e) | Raise _ => ([], [], [], [], []) end) [[2; 0]; [0; 1; 2]] =
    [([2; 0; 1], [0; 1; 3; 4; 5; 7; 12; 13; 15], [0; 3; 7; 12; 15], [0; 2; 5; 6; 8], [2; 3; 1; 2; 1]); ([2; 1; 1], [0; 1; 2; 3; 4; 5; 6; 7; 8; 9; 10; 11; 12; 13; 14; 15], [0; 6; 11], [0; 6; 11], [6; 5; 5])] /\
  match stdm12s_of_ci (fun n => rev (seq 0 n)) 3 z_C hq (fun v => negb (x_big v)) x_big x_big x_set with Raise _ => False | Ok (o1, o2) =>
    forallb (fun c => let '((i, j), x, v) := c in let a := nth i y_states (0, []) in let b := nth j y_states (0, []) in
      let bra := product (space z_C) (fst a) (snd a) in let ket := product (space z_C) (fst b) (snd b) in
      (number (space z_C) (fst a) (snd a) =? i) && (number (space z_C) (fst b) (snd b) =? j) &&
      match x with
      | [s; p; q] => z_eq (o1 i s p q j) (zq v) && z_eq (dens1 4 bra ket s p q) (zq v)
      | [s; p; q; t; r; u] => z_eq (o2 i s p q t r u j) (zq v) && z_eq (dens2 4 bra ket s p q t r u) (zq v)
      | _ => false end) w_samples = true end.
Proof. split; [reflexivity|]. vm_compute. reflexivity. Qed.
