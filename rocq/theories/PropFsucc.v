(** Property C57: the Fock-space kernels of lib/fsucc.c apply the operators they are named after. *)
From Coq Require Import List NArith ZArith Arith Bool Lia Ring Sorting.Permutation QArith Qcanon.
From Verif Require Import Star FockSpec FockFacts FsuccModel FsuccFacts FsuccProofs FockOps FsuccHop.
Import ListNotations.
Close Scope Qc_scope. Close Scope Q_scope.

Definition below (m : nat) (l : list nat) : Prop := Forall (fun q => (q < m)%nat) l.
(** determinants that exist among [m] orbitals *)
Definition valid (m : nat) (e : N) : Prop := (e < 2 ^ N.of_nat m)%N.
Definition same_set (a i : list nat) : Prop := forall q, In q a <-> In q i.
(** among the orbitals of [a] and [i], exactly those of [l] are occupied *)
Definition holds_exactly (a i l : list nat) (e : N) : Prop := forall q, In q (a ++ i) -> (bt e q = true <-> In q l).

Lemma differ_of a i : ~ same_set a i -> differ a i.
Proof.
  intros H. unfold differ.
  destruct (existsb (fun q => negb (existsb (Nat.eqb q) i)) a) eqn:E1.
  { apply existsb_exists in E1. destruct E1 as [q [Q1 Q2]]. exists q. left. split; [assumption|]. intros C.
    apply negb_true_iff in Q2. rewrite (proj2 (existsb_exists (Nat.eqb q) i)) in Q2; [discriminate|]. exists q. split; [assumption|apply Nat.eqb_refl]. }
  destruct (existsb (fun q => negb (existsb (Nat.eqb q) a)) i) eqn:E2.
  { apply existsb_exists in E2. destruct E2 as [q [Q1 Q2]]. exists q. right. split; [assumption|]. intros C.
    apply negb_true_iff in Q2. rewrite (proj2 (existsb_exists (Nat.eqb q) a)) in Q2; [discriminate|]. exists q. split; [assumption|apply Nat.eqb_refl]. }
  exfalso. apply H. 
  assert (G : forall l l', existsb (fun q => negb (existsb (Nat.eqb q) l')) l = false -> forall q, In q l -> In q l').
  { intros l l' E q Hq. destruct (existsb (Nat.eqb q) l') eqn:X.
    - apply existsb_exists in X. destruct X as [y [Hy Ey]]. apply Nat.eqb_eq in Ey. now subst.
    - assert (T : existsb (fun q => negb (existsb (Nat.eqb q) l')) l = true); [|congruence]. apply existsb_exists. exists q. now rewrite X. }
  intros q. split; eauto.
Qed.
Lemma only_holds a i l e : only_ a i l e = true <-> holds_exactly a i l e.
Proof.
  unfold only_, holds_exactly. rewrite forallb_forall. 
  assert (X : forall q, existsb (Nat.eqb q) l = true <-> In q l).
  { intros q. rewrite existsb_exists. split; [intros [y [Hy Ey]]; apply Nat.eqb_eq in Ey; now subst|]. intros Hq. exists q. split; [assumption|apply Nat.eqb_refl]. }
  split; intros H q Hq; specialize (H q Hq).
  - apply eqb_prop in H. rewrite H. apply X.
  - apply eqb_true_iff. apply eq_true_iff_eq. rewrite X. assumption.
Qed.

Section C57.
Variable K : star_ring.
Add Ring Kring : (sring K).
Local Open Scope star_scope.
Variable is0 : K -> bool.
Hypothesis is0_ok : forall x : K, is0 x = true -> x = s0.
Variable sched : list N -> list N.
Hypothesis sched_ok : forall l, Permutation (sched l) l.

(** ** FSUCCcontract1g: hpsi += g a0' a1' ... i1 i0 psi, whatever order the threads take *)
Theorem C57_general m a i (g : K) psi hpsi : (m < 31)%nat -> below m a -> below m i ->
  exists r, contract1g K is0 sched m a i g psi hpsi = Some r /\
    (forall e, valid m e -> r e = hpsi e + g * exop K m a i psi e) /\
    (forall e, ~ valid m e -> r e = hpsi e).
Proof. intros Hm Ha Hi. exact (contract1g_spec K is0 is0_ok sched sched_ok m a i Hm Ha Hi g psi hpsi). Qed.

(** ** FSUCCcontract1u: the rotation exp (t G), G = a0' a1' ... i1 i0 - h.c. *)
Theorem C57_unitary m a i (c s : K) psi : (m < 31)%nat -> below m a -> below m i -> ~ same_set a i ->
  exists r, contract1u K is0 sched m a i c s psi = Some r /\
    (forall e, valid m e -> r e = rot K m a i c s psi e) /\
    (forall e, ~ valid m e -> r e = psi e).
Proof. intros Hm Ha Hi D. exact (contract1u_spec K is0 is0_ok sched sched_ok m a i Hm Ha Hi c s psi (differ_of a i D)). Qed.

Section Pair.
Variables (m : nat) (a i : list nat).
Hypothesis Hm : (m < 31)%nat.
Hypothesis Ha : below m a.
Hypothesis Hi : below m i.
Hypothesis Hd : ~ same_set a i.
Notation run := (contract1u K is0 sched m a i).

(** G is anti-hermitian and has cube -G, so 1 + sin t G + (1 - cos t) G^2 is its exponential *)
Theorem C57_generator (u v : vec K) : inner K m (gen K m a i u) v = - inner K m u (gen K m a i v).
Proof. now apply gen_adj. Qed.
Theorem C57_generator_cube (v : vec K) e : gen K m a i (gen K m a i (gen K m a i v)) e = - gen K m a i v e.
Proof. apply gen_cube; try assumption. now apply differ_of. Qed.

(** rotating by two angles in turn rotates by their sum *)
Theorem C57_angles_add (c s c' s' : K) psi r r' t : 
  run c s psi = Some r -> run c' s' r = Some r' -> run (c * c' - s * s') (s * c' + c * s') psi = Some t ->
  veq K m r' t.
Proof.
  intros E1 E2 E3 e He. 
  destruct (C57_unitary m a i c s psi Hm Ha Hi Hd) as [x [X1 [X2 _]]].
  destruct (C57_unitary m a i c' s' r Hm Ha Hi Hd) as [y [Y1 [Y2 _]]].
  destruct (C57_unitary m a i (c * c' - s * s') (s * c' + c * s') psi Hm Ha Hi Hd) as [z [Z1 [Z2 _]]].
  replace r with x in * by congruence. replace r' with y in * by congruence. replace t with z in * by congruence.
  rewrite Y2, Z2 by assumption. rewrite (rot_ext K m a i Ha Hi c' s' x (rot K m a i c s psi)) by assumption.
  apply rot_rot; try assumption. now apply differ_of.
Qed.
(** the rotation by the opposite angle undoes it *)
Theorem C57_inverse (c s : K) psi r r' : c * c + s * s = s1 ->
  run c s psi = Some r -> run c (- s) r = Some r' -> forall e, r' e = psi e.
Proof.
  intros U E1 E2 e. 
  destruct (C57_unitary m a i c s psi Hm Ha Hi Hd) as [x [X1 [X2 X3]]].
  destruct (C57_unitary m a i c (- s) r Hm Ha Hi Hd) as [y [Y1 [Y2 Y3]]].
  replace r with x in * by congruence. replace r' with y in * by congruence.
  destruct (N.lt_ge_cases e (2 ^ N.of_nat m)) as [He|He].
  - rewrite Y2 by assumption. rewrite (rot_ext K m a i Ha Hi c (- s) x (rot K m a i c s psi)) by assumption.
    apply rot_inv; try assumption. now apply differ_of.
  - assert (~ valid m e) by (unfold valid; lia). now rewrite Y3, X3.
Qed.
(** inner products survive *)
Theorem C57_isometry (c s : K) u v ru rv : sconj c = c -> sconj s = s -> c * c + s * s = s1 ->
  run c s u = Some ru -> run c s v = Some rv -> inner K m ru rv = inner K m u v.
Proof.
  intros Hc Hs U E1 E2. 
  destruct (C57_unitary m a i c s u Hm Ha Hi Hd) as [x [X1 [X2 _]]].
  destruct (C57_unitary m a i c s v Hm Ha Hi Hd) as [y [Y1 [Y2 _]]].
  replace ru with x in * by congruence. replace rv with y in * by congruence.
  rewrite (inner_ext K m x (rot K m a i c s u) y (rot K m a i c s v)) by assumption.
  apply rot_iso; try assumption. now apply differ_of.
Qed.
End Pair.

(** ** FSUCCprojai: keeps the determinants that the generator can act on *)
Theorem C57_project m a i (psi : vec K) : (m < 31)%nat -> below m a -> below m i ->
  exists r, projai K m a i psi = Some r /\
    (forall e, valid m e -> (holds_exactly a i a e \/ holds_exactly a i i e) -> r e = psi e) /\
    (forall e, valid m e -> ~ (holds_exactly a i a e \/ holds_exactly a i i e) -> r e = s0) /\
    (forall e, ~ valid m e -> r e = psi e).
Proof.
  intros Hm Ha Hi. destruct (projai_spec K m a i Hm Ha Hi psi) as [r [E [R1 R2]]]. exists r. split; [exact E|].
  split; [|split; [|exact R2]].
  - intros e He H. rewrite R1 by assumption. fold (only_ a i a e) (only_ a i i e). destruct H as [H|H]; apply only_holds in H; rewrite H; [reflexivity|now rewrite orb_true_r].
  - intros e He H. rewrite R1 by assumption. fold (only_ a i a e) (only_ a i i e).
    destruct (only_ a i a e) eqn:E1; [exfalso; apply H; left; now apply only_holds|].
    destruct (only_ a i i e) eqn:E2; [exfalso; apply H; right; now apply only_holds|]. reflexivity.
Qed.
(** ... which makes it - G^2 *)
Theorem C57_project_gen m a i (psi : vec K) : (m < 31)%nat -> below m a -> below m i -> ~ same_set a i -> NoDup a -> NoDup i ->
  exists r, projai K m a i psi = Some r /\ veq K m r (fun e => - gen K m a i (gen K m a i psi) e).
Proof.
  intros Hm Ha Hi D Na Ni. destruct (projai_spec K m a i Hm Ha Hi psi) as [r [E [R1 R2]]]. exists r. split; [exact E|].
  intros e He. rewrite R1 by assumption. fold (only_ a i a e) (only_ a i i e). symmetry. apply gen_sq; try assumption. now apply differ_of.
Qed.

(** ** FSUCCfullhop: hpsi += sum over all n-electron moves *)
Theorem C57_full norb nelec (h : nat -> K) psi hpsi : (2 * norb < 31)%nat -> (0 < nelec)%nat ->
  exists r, fullhop K is0 sched h psi hpsi norb nelec = Some r /\
    (forall e, valid (2 * norb) e -> r e = hpsi e + nbody K norb nelec h psi e) /\
    (forall e, ~ valid (2 * norb) e -> r e = hpsi e).
Proof.
  intros Hn Hp. destruct nelec as [|n]; [lia|]. unfold fullhop. replace (S n - 1)%nat with n by lia.
  exact (fullhop_adds K is0 is0_ok sched sched_ok norb h psi Hn n 0 [] [] (Forall_nil _) (Forall_nil _) hpsi).
Qed.

(** ** FSUCCcontractS2: the square of the spin *)
Theorem C57_spin_square (half : K) norb psi s2psi : half + half = s1 -> (2 * norb < 31)%nat ->
  exists r, contractS2 K is0 sched half norb psi s2psi = Some r /\
    (forall e, valid (2 * norb) e -> r e = Ssquare K half norb psi e) /\
    (forall e, ~ valid (2 * norb) e -> r e = s2psi e).
Proof. intros Hh Hn. exact (contractS2_spec K is0 is0_ok sched sched_ok half Hh norb Hn psi s2psi). Qed.

(** ** the operators the above is stated with do anticommute *)
Theorem C57_anticommute m p q (v : vec K) e : (p < m)%nat -> (q < m)%nat ->
  cre K m p (cre K m q v) e = - cre K m q (cre K m p v) e /\
  ann K m p (ann K m q v) e = - ann K m q (ann K m p v) e /\
  ann K m p (cre K m q v) e + cre K m q (ann K m p v) e = (if (p =? q)%nat then v e else s0).
Proof. intros Hp Hq. split; [|split]; [now apply cre_cre|now apply ann_ann|now apply ann_cre]. Qed.
Theorem C57_adjoint m p (u v : vec K) : (p < m)%nat -> inner K m (cre K m p u) v = inner K m u (ann K m p v).
Proof. apply cre_adj. Qed.
(** the vacuum is annihilated and has norm one *)
Theorem C57_vacuum m p e : ann K m p (fun d => if (d =? 0)%N then s1 else s0) e = s0.
Proof.
  unfold ann. destruct (bt e p); [reflexivity|]. destruct (N.eqb_spec (sb e p) 0) as [E|E]; [|apply sg_0].
  pose proof (f_equal (fun x => bt x p) E) as B. cbv beta in B. rewrite bt_sb, Nat.eqb_refl, bt_0 in B. discriminate.
Qed.
End C57.

(** two iterations of the loop in FSUCCcontract1 never touch the same determinant *)
Theorem C57_disjoint a i norb x y e : below norb a -> below norb i -> x <> y ->
  let cells x := let d := spread norb (N.lor (sets 0 i) (sets 0 a)) x in [N.lor d (sets 0 i); N.lor d (sets 0 a)] in
  In e (cells x) -> ~ In e (cells y).
Proof. intros Ha Hi Hxy cells. exact (cells_disjoint norb a i Ha Hi x y Hxy e). Qed.

(** ** examples *)
Definition table (n : nat) (o : option (N -> Z)) : option (list Z) :=
  match o with Some r => Some (map (fun k => r (N.of_nat k)) (seq 0 n)) | None => None end.
Definition vz (l : list Z) : N -> Z := fun d => nth (N.to_nat d) l 0%Z.
Definition z0 (x : Z) : bool := (x =? 0)%Z.

(** 2' 0' 1 on three orbitals takes determinant 010 to 101, here ten times and added to what is there *)
Example C57_general_ex :
  table 8 (contract1g Zstar z0 (@rev N) 3 [2; 0]%nat [1]%nat 10%Z (vz [1; 2; 3; 4; 5; 6; 7; 8]%Z) (vz [0; 0; 0; 0; 0; 1; 0; 0]%Z))
  = Some [0; 0; 0; 0; 0; 31; 0; 0]%Z.
Proof. vm_compute. reflexivity. Qed.
(** 2' 0 on three orbitals has to pass an electron in orbital 1 *)
Example C57_general_sign_ex :
  table 8 (contract1g Zstar z0 (fun l => l) 3 [2]%nat [0]%nat 1%Z (vz [1; 2; 3; 4; 5; 6; 7; 8]%Z) (vz []))
  = Some [0; 0; 0; 0; 2; 0; -4; 0]%Z.
Proof. vm_compute. reflexivity. Qed.
(** a quarter turn *)
Example C57_unitary_ex :
  table 8 (contract1u Zstar z0 (fun l => l) 3 [2]%nat [0]%nat 0%Z 1%Z (vz [1; 2; 3; 4; 5; 6; 7; 8]%Z))
  = Some [1; -5; 3; 7; 2; 6; -4; 8]%Z.
Proof. vm_compute. reflexivity. Qed.
(** the hypothesis that creators and annihilators differ is needed: with [a] = [i] the generator is zero, but half a
    turn changes the sign of the occupied determinant (FSUCCOperator.assert_sanity refuses such generators) *)
Example C57_same_set_ex :
  table 2 (contract1u Zstar z0 (fun l => l) 1 [0]%nat [0]%nat 0%Z (-1)%Z (vz [1; 2]%Z)) = Some [1; -2]%Z /\
  rot Zstar 1 [0]%nat [0]%nat 0%Z (-1)%Z (vz [1; 2]%Z) 1%N = 2%Z.
Proof. vm_compute. split; reflexivity. Qed.
Example C57_project_ex :
  table 8 (projai Zstar 3 [2]%nat [0]%nat (vz [1; 2; 3; 4; 5; 6; 7; 8]%Z)) = Some [0; 2; 0; 4; 5; 0; 7; 0]%Z.
Proof. vm_compute. reflexivity. Qed.
(** one electron hopping between two spatial orbitals, 1-electron array (11, 21, 22) = (2, 5, 3) *)
Example C57_full_ex :
  table 16 (fullhop Zstar z0 (fun l => l) (fun k => nth k [2; 5; 3]%Z 0%Z) (vz [0; 1; 0; 0; 0; 10; 0; 0; 0; 0; 0; 0; 0; 0; 0; 0]%Z) (vz []) 2 1)
  = Some [0; 2; 5; 0; 0; 40; 50; 0; 0; 50; 0; 0; 0; 0; 0; 0]%Z.
Proof. vm_compute. reflexivity. Qed.
(** a two-electron operator between equal orbitals counts ordered pairs of electrons *)
Example C57_full2_ex :
  table 4 (fullhop Zstar z0 (fun l => l) (fun k => 1%Z) (vz [1; 1; 1; 1]%Z) (vz []) 1 2) = Some [0; 0; 0; 2]%Z.
Proof. vm_compute. reflexivity. Qed.
Definition Qstar : star_ring := mkStar Qc (Q2Qc 0) (Q2Qc 1) Qcplus Qcmult Qcminus Qcopp Qcrt (fun x => x)
  (fun _ _ => eq_refl) (fun _ _ => eq_refl) (fun _ => eq_refl).
(** two electrons in two orbitals: the open-shell determinants are neither singlet nor triplet, the doubly occupied are singlets *)
Example C57_spin_square_ex :
  match contractS2 Qstar (fun x => Qc_eq_bool x (Q2Qc 0)) (fun l => l) (Q2Qc (1 # 2)%Q) 2
      (fun d => if (d =? 6)%N || (d =? 5)%N || (d =? 1)%N then Q2Qc 1 else Q2Qc 0) (fun _ => Q2Qc 7) with
  | Some r => map (fun k => this (r (N.of_nat k))) (seq 0 16)
  | None => [] end = [0; 3 # 4; 0; 0; 0; 0; 1; 0; 0; -1 # 1; 0; 0; 0; 0; 0; 0]%Q.
Proof. vm_compute. reflexivity. Qed.

Print Assumptions C57_general.
Print Assumptions C57_unitary.
Print Assumptions C57_generator.
Print Assumptions C57_generator_cube.
Print Assumptions C57_angles_add.
Print Assumptions C57_inverse.
Print Assumptions C57_isometry.
Print Assumptions C57_project.
Print Assumptions C57_project_gen.
Print Assumptions C57_full.
Print Assumptions C57_spin_square.
Print Assumptions C57_anticommute.
Print Assumptions C57_adjoint.
Print Assumptions C57_vacuum.
Print Assumptions C57_disjoint.
