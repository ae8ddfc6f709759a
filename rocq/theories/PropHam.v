(** Property C68: the Hamiltonian and squared-spin matrices of hams2ovlp. *)
From Coq Require Import List NArith ZArith Arith Bool Lia Ring QArith Qcanon.
From Verif Require Import Base BaseFacts Star AddrModel AddrSpec SCModel FockSpec FockFacts FockOps LprodSpec SignsModel SignsFacts LasSigns ExcModel UexcModel PropUexc StdmModel StdmFacts PropStdm PropSC PropLsis.
From Verif Require Import CrunchModel CrunchSpec PropCrunch HamModel HamSum HamVals HamLoop HamSpec HamEnd HamOps.
Import ListNotations.
Close Scope Qc_scope. Close Scope Q_scope.
Local Open Scope nat_scope.

Lemma mul_add_l (K : star_ring) (c x y : K) : sadd (smul c x) (smul c y) = smul c (sadd x y).
Proof. rewrite !(Rmul_comm (sring K) c). symmetry. apply (Rdistr_l (sring K)). Qed.
Section Ext.
  Variables (K : star_ring) (nf : nat) (n : nat -> nat) (half : K).
  Lemma hamiltonian_ext h1 h1' h2 h2' v d : (forall s p q, h1 s p q = h1' s p q) -> (forall p q r u, h2 p q r u = h2' p q r u) ->
    hamiltonian K nf n half h1 h2 v d = hamiltonian K nf n half h1' h2' v d.
  Proof.
    intros E1 E2. unfold hamiltonian, vadd, vscale, vsum. f_equal; [|f_equal].
    - repeat (apply bsum_ext; intros ? _). now rewrite E1.
    - repeat (apply bsum_ext; intros ? _). now rewrite E2.
  Qed.
End Ext.

(** no two rows of one table for different fragments or unique roots have the same hash *)
Definition hash_injective {K : star_ring} (P : model_space K) (hash : list Z -> Z) : Prop := forall t r r', In t (w_tables P) -> In r t -> In r' t ->
  hash (spman_words (w_uroot P) r) = hash (spman_words (w_uroot P) r') -> spman_words (w_uroot P) r = spman_words (w_uroot P) r'.
Definition hermitian1 {K : star_ring} (h1 : nat -> nat * nat -> nat * nat -> K) : Prop := forall s p q, sconj (h1 s p q) = h1 s q p.
(** integrals over real orbitals *)
Definition symmetric2 {K : star_ring} (h2 : nat * nat -> nat * nat -> nat * nat -> nat * nat -> K) : Prop :=
  (forall p q r u, h2 p q r u = h2 r u p q) /\ (forall p q r u, h2 p q r u = h2 q p u r) /\ (forall p q r u, sconj (h2 p q r u) = h2 p q r u).

Section Both.
  Variables (K : star_ring) (P : model_space K) (half : K) (big : K -> bool) (pyset : list nat -> list nat) (ints : nat -> @fmats K) (ovlp : nat -> nat -> nat -> list (list K)).
  Variables (hash : list Z -> Z) (h1 : nat -> nat * nat -> nat * nat -> K) (h2 : nat * nat -> nat * nat -> nat * nat -> nat * nat -> K).
  Hypothesis Pp : proper P.
  Hypothesis Hex : forall f, f < m_nf P -> exact K (m_norb P) (m_vec P) (m_ne P) (m_nl P) f (ints f).
  Hypothesis Hg : gram P ovlp.
  Hypothesis Hset : set_like pyset.
  Hypothesis Hhalf : sadd half half = s1.
  Hypothesis Hbig : forall v, big v = false -> v = s0.
  Hypothesis Hbc : forall v, big (sconj v) = big v.
  Hypothesis Hcf : forall t, In t (w_tables P) -> collision_free (w_uroot P) t.
  Hypothesis Hhash : hash_injective P hash.
  Hypothesis Hpair : forall p q r u, h2 p q r u = h2 r u p q.
  Hypothesis Htr : forall p q r u, h2 p q r u = h2 q p u r.
  Local Notation nf := (m_nf P).
  Local Notation n := (m_norb P).
  Local Notation el r e r' e' := (fun x => inner K (2 * norb nf n) (product P r e) (gops K nf n (xops x) (product P r' e'))).
  Lemma both : exists hs, make_ham P half big pyset ints ovlp hash h1 h2 = Ok hs /\
    forall r e r' e', r < m_nroots P -> r' < m_nroots P -> in_range (dims_of (w_lroots P) r) e -> in_range (dims_of (w_lroots P) r') e' ->
      let A := states_before (w_lroots P) r + colmajor (dims_of (w_lroots P) r) e in let B := states_before (w_lroots P) r' + colmajor (dims_of (w_lroots P) r') e' in
      ((forall x, sconj (hx K half h1 h2 x) = hx K half h1 h2 (tix_tr x)) -> fst hs A B = gsum nf n (fun x => smul (hx K half h1 h2 x) (el r e r' e' x))) /\
      ((forall x : K, sconj x = x) -> snd hs A B = gsum nf n (fun x => smul (sx K half x) (el r e r' e' x))).
  Proof.
    destruct (contracted P half big (fun _ => false) pyset ints ovlp hash h1 h2 Pp Hex Hg Hset Hhalf eq_refl Hcf Hhash Hpair Htr) as (hs & t0 & E & Et & V).
    destruct (C65_transition_densities K P half big (fun _ => false) pyset ints ovlp Pp Hex Hg Hset Hhalf eq_refl Hbig Hbc Hcf) as (T & Et' & VT).
    assert (Q : T = add_transpose tix_tr t0) by congruence. exists hs. split; [exact E|].
    intros r e r' e' Hr Hr' R R'. cbv zeta. destruct (V r e r' e' Hr Hr' R R') as [V1 V2]. unfold address in V1, V2.
    assert (VT' : forall x, tix_in nf n x -> sadd (t0 (states_before (w_lroots P) r + colmajor (dims_of (w_lroots P) r) e) (states_before (w_lroots P) r' + colmajor (dims_of (w_lroots P) r') e') x)
      (sconj (t0 (states_before (w_lroots P) r' + colmajor (dims_of (w_lroots P) r') e') (states_before (w_lroots P) r + colmajor (dims_of (w_lroots P) r) e) (tix_tr x))) = el r e r' e' x).
    { intros x Hx. rewrite <- (VT r e r' e' x Hr Hr' R R' Hx), Q. reflexivity. }
    set (A := states_before (w_lroots P) r + colmajor (dims_of (w_lroots P) r) e) in *. set (B := states_before (w_lroots P) r' + colmajor (dims_of (w_lroots P) r') e') in *.
    assert (Gen : forall c : tix -> K, (forall x, sconj (c x) = c (tix_tr x)) ->
      sadd (gsum nf n (fun x => smul (c x) (t0 A B x))) (sconj (gsum nf n (fun x => smul (c x) (t0 B A x)))) = gsum nf n (fun x => smul (c x) (el r e r' e' x))).
    { intros c Hc. rewrite gsum_conj. rewrite <- (gsum_tr nf n (fun x => sconj (smul (c x) (t0 B A x)))). rewrite <- gsum_add.
      apply gsum_ext_in. intros x Hx. rewrite <- (VT' x Hx). rewrite sconj_mul, Hc.
      replace (tix_tr (tix_tr x)) with x by (destruct x; reflexivity).
      apply mul_add_l. }
    split.
    - intros Hh. rewrite V1. exact (Gen _ Hh).
    - intros Hreal. rewrite V2. transitivity (sadd (gsum nf n (fun x => smul (coef half h1 h2 false x) (t0 A B x))) (sconj (gsum nf n (fun x => smul (coef half h1 h2 false x) (t0 B A x))))); [now rewrite Hreal|].
      apply (Gen (sx K half)). intros x. rewrite Hreal. symmetry. destruct x as [s p q|b p q r0 u]; cbn [tix_tr sx].
      + now rewrite oeq_sym.
      + rewrite (oeq_sym q p), (oeq_sym u r0), (oeq_sym q r0), (oeq_sym u p), (andb_comm (oeq r0 q)). reflexivity.
  Qed.
End Both.

(** The Hamiltonian matrix, for every hermitian one-electron part that may depend on spin: it is the matrix of the Hamiltonian
    with the complex conjugate of the one-electron integrals. *)
Theorem C68_hamiltonian : forall (K : star_ring) (P : model_space K) (half : K) (big : K -> bool) (pyset : list nat -> list nat) (ints : nat -> @fmats K) (ovlp : nat -> nat -> nat -> list (list K))
    (hash : list Z -> Z) (h1 : nat -> nat * nat -> nat * nat -> K) (h2 : nat * nat -> nat * nat -> nat * nat -> nat * nat -> K),
  proper P -> (forall f, f < m_nf P -> exact K (m_norb P) (m_vec P) (m_ne P) (m_nl P) f (ints f)) -> gram P ovlp -> set_like pyset ->
  sadd half half = s1 -> (forall v, big v = false -> v = s0) -> (forall v, big (sconj v) = big v) ->
  (forall t, In t (w_tables P) -> collision_free (w_uroot P) t) -> hash_injective P hash -> hermitian1 h1 -> symmetric2 h2 ->
  exists ham s2, make_ham P half big pyset ints ovlp hash h1 h2 = Ok (ham, s2) /\
    forall r e r' e', r < m_nroots P -> r' < m_nroots P -> in_range (dims_of (w_lroots P) r) e -> in_range (dims_of (w_lroots P) r') e' ->
      ham (states_before (w_lroots P) r + colmajor (dims_of (w_lroots P) r) e) (states_before (w_lroots P) r' + colmajor (dims_of (w_lroots P) r') e') =
      inner K (2 * norb (m_nf P) (m_norb P)) (product P r e)
        (hamiltonian K (m_nf P) (m_norb P) half (fun dn p q => sconj (h1 (if dn then 1 else 0) p q)) h2 (product P r' e')).
Proof.
  intros K P half big pyset ints ovlp hash h1 h2 Pp Hex Hg Hset Hhalf Hbig Hbc Hcf Hh H1 (Hp & Ht & Hr).
  destruct (both K P half big pyset ints ovlp hash h1 h2 Pp Hex Hg Hset Hhalf Hbig Hbc Hcf Hh Hp Ht) as ([ham s2] & E & V).
  exists ham, s2. split; [exact E|]. intros r e r' e' Lr Lr' R R'. destruct (V r e r' e' Lr Lr' R R') as [V1 _]. cbn [fst] in V1. rewrite V1.
  - rewrite <- inner_gsum. apply inner_ext; [intros d _; reflexivity|]. intros d _. rewrite <- ham_sum. apply hamiltonian_ext.
    + intros s p q. symmetry. apply H1.
    + intros p q r0 u. symmetry. apply Ht.
  - intros [s p q|b p q r0 u]; cbn [hx tix_tr]; [apply H1|]. rewrite sconj_mul, (half_real K half Hhalf), Hr. now rewrite Ht.
Qed.
Print Assumptions C68_hamiltonian.

(** For real integrals it is the Hamiltonian. *)
Theorem C68_hamiltonian_real : forall (K : star_ring) (P : model_space K) (half : K) (big : K -> bool) (pyset : list nat -> list nat) (ints : nat -> @fmats K) (ovlp : nat -> nat -> nat -> list (list K))
    (hash : list Z -> Z) (h1 : nat -> nat * nat -> nat * nat -> K) (h2 : nat * nat -> nat * nat -> nat * nat -> nat * nat -> K),
  proper P -> (forall f, f < m_nf P -> exact K (m_norb P) (m_vec P) (m_ne P) (m_nl P) f (ints f)) -> gram P ovlp -> set_like pyset ->
  sadd half half = s1 -> (forall v, big v = false -> v = s0) -> (forall v, big (sconj v) = big v) ->
  (forall t, In t (w_tables P) -> collision_free (w_uroot P) t) -> hash_injective P hash ->
  (forall s p q, sconj (h1 s p q) = h1 s p q /\ h1 s p q = h1 s q p) -> symmetric2 h2 ->
  exists ham s2, make_ham P half big pyset ints ovlp hash h1 h2 = Ok (ham, s2) /\
    forall r e r' e', r < m_nroots P -> r' < m_nroots P -> in_range (dims_of (w_lroots P) r) e -> in_range (dims_of (w_lroots P) r') e' ->
      ham (states_before (w_lroots P) r + colmajor (dims_of (w_lroots P) r) e) (states_before (w_lroots P) r' + colmajor (dims_of (w_lroots P) r') e') =
      inner K (2 * norb (m_nf P) (m_norb P)) (product P r e)
        (hamiltonian K (m_nf P) (m_norb P) half (fun dn p q => h1 (if dn then 1 else 0) p q) h2 (product P r' e')).
Proof.
  intros K P half big pyset ints ovlp hash h1 h2 Pp Hex Hg Hset Hhalf Hbig Hbc Hcf Hh H1 H2.
  destruct (C68_hamiltonian K P half big pyset ints ovlp hash h1 h2 Pp Hex Hg Hset Hhalf Hbig Hbc Hcf Hh) as (ham & s2 & E & V); [intros s p q; destruct (H1 s p q) as [-> ->]; reflexivity|exact H2|].
  exists ham, s2. split; [exact E|]. intros r e r' e' Lr Lr' R R'. rewrite V by assumption. apply inner_ext; [intros d _; reflexivity|]. intros d _. apply hamiltonian_ext; [|reflexivity].
  intros s p q. apply H1.
Qed.
Print Assumptions C68_hamiltonian_real.

(** In real arithmetic the second matrix is that of the squared spin, whatever the integrals. *)
Theorem C68_spin_squared : forall (K : star_ring) (P : model_space K) (half : K) (big : K -> bool) (pyset : list nat -> list nat) (ints : nat -> @fmats K) (ovlp : nat -> nat -> nat -> list (list K))
    (hash : list Z -> Z) (h1 : nat -> nat * nat -> nat * nat -> K) (h2 : nat * nat -> nat * nat -> nat * nat -> nat * nat -> K),
  proper P -> (forall f, f < m_nf P -> exact K (m_norb P) (m_vec P) (m_ne P) (m_nl P) f (ints f)) -> gram P ovlp -> set_like pyset ->
  sadd half half = s1 -> (forall v, big v = false -> v = s0) -> (forall v : K, sconj v = v) ->
  (forall t, In t (w_tables P) -> collision_free (w_uroot P) t) -> hash_injective P hash -> symmetric2 h2 ->
  exists ham s2, make_ham P half big pyset ints ovlp hash h1 h2 = Ok (ham, s2) /\
    forall r e r' e', r < m_nroots P -> r' < m_nroots P -> in_range (dims_of (w_lroots P) r) e -> in_range (dims_of (w_lroots P) r') e' ->
      s2 (states_before (w_lroots P) r + colmajor (dims_of (w_lroots P) r) e) (states_before (w_lroots P) r' + colmajor (dims_of (w_lroots P) r') e') =
      inner K (2 * norb (m_nf P) (m_norb P)) (product P r e) (s_squared K (m_nf P) (m_norb P) half (product P r' e')).
Proof.
  intros K P half big pyset ints ovlp hash h1 h2 Pp Hex Hg Hset Hhalf Hbig Hreal Hcf Hh (Hp & Ht & Hr).
  destruct (both K P half big pyset ints ovlp hash h1 h2 Pp Hex Hg Hset Hhalf Hbig (fun v => f_equal big (Hreal v)) Hcf Hh Hp Ht) as ([ham s2] & E & V).
  exists ham, s2. split; [exact E|]. intros r e r' e' Lr Lr' R R'. destruct (V r e r' e' Lr Lr' R R') as [_ V2]. cbn [snd] in V2. rewrite (V2 Hreal).
  rewrite <- inner_gsum. apply inner_ext; [intros d _; reflexivity|]. intros d _. symmetry. now apply s_squared_sum.
Qed.
Print Assumptions C68_spin_squared.

(** The five rootspaces of C65: all values of both matrices. *)
Definition y_hash (l : list Z) : Z := fold_left (fun a x => (a * 11 + x + 1)%Z) l 1%Z.
Definition y_a (p q : nat * nat) : Z := (Z.of_nat (fst p + snd p + fst q + snd q) + (if oeq p q then 3 else 1))%Z.
Definition y_h1 (s : nat) (p q : nat * nat) : Qs := zq (y_a p q + Z.of_nat s).
Definition y_h2 (p q r u : nat * nat) : Qs := zq (y_a p q * y_a r u).
Lemma y_sym : symmetric2 y_h2.
Proof.
  assert (C : forall p q, y_a p q = y_a q p) by (intros p q; unfold y_a; rewrite (oeq_sym p q); destruct (oeq q p); lia).
  split; [|split]; intros p q r u; unfold y_h2; [|now rewrite (C q), (C u)|reflexivity]. f_equal. lia.
Qed.
Definition y_inj : bool := forallb (fun t => forallb (fun r => forallb (fun r' =>
  if (y_hash (spman_words (w_uroot y_P) r) =? y_hash (spman_words (w_uroot y_P) r'))%Z then if list_eq_dec Z.eq_dec (spman_words (w_uroot y_P) r) (spman_words (w_uroot y_P) r') then true else false else true) t) t) (w_tables y_P).
Lemma y_inj_ok : hash_injective y_P y_hash.
Proof.
  assert (E : y_inj = true) by (vm_compute; reflexivity). intros t r r' Ht Hr Hr' Q. unfold y_inj in E. rewrite forallb_forall in E. specialize (E t Ht). rewrite forallb_forall in E. specialize (E r Hr). rewrite forallb_forall in E. specialize (E r' Hr').
  rewrite Q, Z.eqb_refl in E. destruct (list_eq_dec _ _ _); [assumption|discriminate].
Qed.
Definition y_mats : list (list (Q * Q)) := let i := inject_Z in
 [[(i 913950, (64575 # 4)%Q); (i 507150, (36225 # 4)%Q); (i 60750, i 0); (i 85800, i (-6600)); (i 5280, i 0); (i 202350, i 0)];
  [(i 507150, (36225 # 4)%Q); (i 283050, (20475 # 4)%Q); (i 33000, i 0); (i 46800, i (-3600)); (i 2880, i 0); (i 109950, i 0)];
  [(i 60750, i 0); (i 33000, i 0); (i 60625, (1875 # 4)%Q); (i 87000, i 0); (i 5300, i 0); (i 13750, i 0)];
  [(i 85800, i (-6600)); (i 46800, i (-3600)); (i 87000, i 0); (i 592400, i 9100); (i 19120, i 0); (i 94600, i 0)];
  [(i 5280, i 0); (i 2880, i 0); (i 5300, i 0); (i 19120, i 0); (i 1968, i 12); (i 3160, i 0)];
  [(i 202350, i 0); (i 109950, i 0); (i 13750, i 0); (i 94600, i 0); (i 3160, i 0); (i 284600, i 3225)]]%Z.
Definition y_check : bool :=
  match make_ham y_P hq x_big x_set (table_of y_P) y_ovlp y_hash y_h1 y_h2 with Raise _ => false | Ok (h, s) =>
    forallb (fun i => forallb (fun j => let v := nth j (nth i y_mats []) (0%Q, 0%Q) in Qeq_bool (this (h i j)) (fst v) && Qeq_bool (this (s i j)) (snd v)) (seq 0 6)) (seq 0 6) end.
Example C68_example : y_check = true /\
  Qeq_bool (this (inner Qs 8 (product y_P 0 [0; 0; 0]) (s_squared Qs 3 y_norb hq (product y_P 2 [0; 0; 0])))) (inject_Z (-6600)) = true.
Proof. split; vm_compute; reflexivity. Qed.

(** ** Where it is not the Hamiltonian *)
(** complex numbers with rational parts *)
Definition ci_add (x y : Qc * Qc) : Qc * Qc := (fst x + fst y, snd x + snd y)%Qc.
Definition ci_mul (x y : Qc * Qc) : Qc * Qc := (fst x * fst y - snd x * snd y, fst x * snd y + snd x * fst y)%Qc.
Definition ci_opp (x : Qc * Qc) : Qc * Qc := (- fst x, - snd x)%Qc.
Definition ci_sub (x y : Qc * Qc) : Qc * Qc := (fst x - fst y, snd x - snd y)%Qc.
Definition ci_conj (x : Qc * Qc) : Qc * Qc := (fst x, - snd x)%Qc.
Lemma ci_ring : ring_theory (Q2Qc 0, Q2Qc 0) (Q2Qc 1, Q2Qc 0) ci_add ci_mul ci_sub ci_opp eq.
Proof.
  split; intros; repeat match goal with x : (Qc * Qc)%type |- _ => destruct x end; unfold ci_add, ci_mul, ci_sub, ci_opp; cbn [fst snd]; f_equal; ring.
Qed.
Definition Cq : star_ring.
Proof.
  refine (mkStar (Qc * Qc) (Q2Qc 0, Q2Qc 0) (Q2Qc 1, Q2Qc 0) ci_add ci_mul ci_sub ci_opp ci_ring ci_conj _ _ _).
  - intros [a b] [c d]. unfold ci_conj, ci_add. cbn [fst snd]. f_equal. ring.
  - intros [a b] [c d]. unfold ci_conj, ci_mul. cbn [fst snd]. f_equal; ring.
  - intros [a b]. unfold ci_conj. cbn [fst snd]. f_equal. ring.
Defined.
Definition cz (a b : Z) : Cq := (Q2Qc (a # 1), Q2Qc (b # 1)).
Definition ch : Cq := (Q2Qc (1 # 2), Q2Qc 0).
Definition cbig (v : Cq) : bool := negb (Qeq_bool (this (fst v)) 0 && Qeq_bool (this (snd v)) 0).
Definition ceq (x y : Cq) : bool := Qeq_bool (this (fst x)) (this (fst y)) && Qeq_bool (this (snd x)) (this (snd y)).
Lemma cbig_0 v : cbig v = false -> v = s0.
Proof.
  destruct v as [a b]. unfold cbig. cbn [fst snd]. intros H. apply negb_false_iff, andb_true_iff in H as [H1 H2].
  apply Qeq_bool_iff in H1, H2. cbn [s0 Cq]. f_equal; apply Qc_is_canon; [rewrite H1|rewrite H2]; reflexivity.
Qed.
Lemma cbig_conj v : cbig (sconj v) = cbig v.
Proof.
  destruct v as [a b]. unfold cbig. cbn [sconj Cq ci_conj fst snd]. f_equal. f_equal. apply eq_true_iff_eq. rewrite !Qeq_bool_iff. split; intros H.
  - assert (Z : Qcopp b = Q2Qc 0) by (apply Qc_is_canon; rewrite H; reflexivity). replace b with (Qcopp (Qcopp b)) by ring. rewrite Z. reflexivity.
  - assert (Z : b = Q2Qc 0) by (apply Qc_is_canon; rewrite H; reflexivity). now rewrite Z.
Qed.

(** one fragment with two orbitals and one electron, in each orbital in turn *)
Definition c_ne (f a : nat) : nat * nat := (1, 0).
Definition c_vec (f a i : nat) : vec Cq := fun d => if (d =? N.of_nat (4 * (i + 1)))%N then cz 1 0 else cz 0 0.
Definition c_P : model_space Cq := mkMS 1 (fun _ => 2) c_vec c_ne (fun _ _ => 2) (fun _ _ => 0) 1.
Definition c_ovlp (f b k : nat) : list (list Cq) := [[cz 1 0; cz 0 0]; [cz 0 0; cz 1 0]].
Definition c_h1 (s : nat) (p q : nat * nat) : Cq := cz 0 (Z.of_nat (snd q) - Z.of_nat (snd p)).
Lemma c_herm : hermitian1 c_h1.
Proof.
  intros s p q. unfold c_h1. replace (Z.of_nat (snd p) - Z.of_nat (snd q))%Z with (- (Z.of_nat (snd q) - Z.of_nat (snd p)))%Z by lia. generalize (Z.of_nat (snd q) - Z.of_nat (snd p))%Z. intros z.
  cbn [sconj Cq]. unfold ci_conj, cz. cbn [fst snd]. f_equal. apply Qc_is_canon. unfold Qcopp. cbn [this Q2Qc]. rewrite !Qred_correct. reflexivity.
Qed.
Definition c_h2 (p q r u : nat * nat) : Cq := cz 0 0.

Lemma ceq_ok x y : ceq x y = true -> x = y.
Proof.
  destruct x as [a b], y as [c d]. unfold ceq. cbn [fst snd]. intros H. apply andb_true_iff in H as [H1 H2]. apply Qeq_bool_iff in H1, H2. f_equal; now apply Qc_is_canon.
Qed.
(** the order of a set of fragments *)
Definition c_set (l : list nat) : list nat := if forallb (fun f => f <? 8) l then filter (fun f => existsb (Nat.eqb f) l) (seq 0 8) else nodup Nat.eq_dec l.
Lemma c_set_like : set_like c_set.
Proof.
  split.
  - intros l. unfold c_set. destruct (forallb _ l) eqn:E.
    + split; [apply NoDup_filter, seq_NoDup|]. intros f. rewrite filter_In, in_seq, existsb_exists. rewrite forallb_forall in E. split.
      * intros (_ & g & Hg & Q). apply Nat.eqb_eq in Q. now subst.
      * intros Hf. split; [|exists f; split; [exact Hf|apply Nat.eqb_refl]]. apply E, Nat.ltb_lt in Hf. lia.
    + split; [apply NoDup_nodup|]. intros f. apply nodup_In.
  - intros l Hl. unfold c_set. replace (forallb (fun f => f <? 8) l) with true.
    + rewrite (list_set_ascending l 8) by (assumption || lia). reflexivity.
    + symmetry. apply forallb_forall. intros f Hf. rewrite Forall_forall in Hl. now apply Nat.ltb_lt, Hl.
Qed.
Lemma c_proper : proper c_P.
Proof.
  split; [cbn; lia|]. split; [cbn; lia|]. split; [cbn; intros; lia|]. split; [cbn; intros; lia|].
  intros f a i Hf Hi d Hd. cbn [c_P m_vec m_norb m_ne m_nl] in *. unfold c_vec. destruct (N.eqb_spec d (N.of_nat (4 * (i + 1)))) as [->|]; [right|left; reflexivity].
  destruct i as [|[|i]]; [| |lia]; vm_compute; split; reflexivity.
Qed.
Lemma c_gram : gram c_P c_ovlp.
Proof.
  intros f b k Hf Hb Hk. cbn [c_P m_nf m_nroots m_nl m_ur] in *. split; [split; [reflexivity|intros row [<-|[<-|[]]]; reflexivity]|].
  intros i j Hi Hj. apply ceq_ok. assert (f = 0) by lia. subst f. destruct i as [|[|i]], j as [|[|j]]; try lia; vm_compute; reflexivity.
Qed.
Definition free_check {K : star_ring} (P : model_space K) (hash : list Z -> Z) : bool :=
  let same h x y := if (h x =? h y)%Z then if list_eq_dec Z.eq_dec x y then true else false else true in
  forallb (fun t => let l := map (words (w_uroot P)) t ++ map (words_T (w_uroot P)) t in let l' := map (spman_words (w_uroot P)) t in
    forallb (fun x => forallb (same fnv_1a x) l) l && forallb (fun x => forallb (same hash x) l') l') (w_tables P).
Lemma free_check_ok {K : star_ring} (P : model_space K) hash : free_check P hash = true -> (forall t, In t (w_tables P) -> collision_free (w_uroot P) t) /\ hash_injective P hash.
Proof.
  intros E. unfold free_check in E. rewrite forallb_forall in E.
  assert (G : forall (h : list Z -> Z) l, forallb (fun x => forallb (fun y => if (h x =? h y)%Z then if list_eq_dec Z.eq_dec x y then true else false else true) l) l = true -> forall x y, In x l -> In y l -> h x = h y -> x = y).
  { intros h l F x y Hx Hy Q. rewrite forallb_forall in F. specialize (F x Hx). rewrite forallb_forall in F. specialize (F y Hy). rewrite Q, Z.eqb_refl in F. destruct (list_eq_dec _ x y); [assumption|discriminate]. }
  split.
  - intros t Ht. specialize (E t Ht). apply andb_true_iff in E as [E _]. intros x y. apply (G _ _ E).
  - intros t r r' Ht Hr Hr' Q. specialize (E t Ht). apply andb_true_iff in E as [_ E]. apply (G _ _ E); [apply in_map; assumption..|exact Q].
Qed.
Lemma c_free : (forall t, In t (w_tables c_P) -> collision_free (w_uroot c_P) t) /\ hash_injective c_P y_hash.
Proof. apply free_check_ok. vm_compute. reflexivity. Qed.

Lemma ok_ex {K : star_ring} (x : res (@mat K * @mat K)) (f : @mat K -> @mat K -> bool) : match x with Ok (h, s) => f h s | Raise _ => false end = true -> exists h s, x = Ok (h, s) /\ f h s = true.
Proof. destruct x as [[h s]|]; [|discriminate]. intros H. now exists h, s. Qed.
Definition c_test (h s : @mat Cq) : bool := negb (ceq (h 0 1) (cz 0 1)).
Lemma c_value : match make_ham c_P ch cbig c_set (table_of c_P) c_ovlp y_hash c_h1 c_h2 with Ok (h, s) => c_test h s | Raise _ => false end = true.
Proof. vm_compute. reflexivity. Qed.
Definition c_spec : Cq := inner Cq 4 (product c_P 0 [0]) (hamiltonian Cq 1 (fun _ => 2) ch (fun dn p q => c_h1 (if dn then 1 else 0) p q) c_h2 (product c_P 0 [1])).
(** With spin-orbit coupling the one-electron part is complex, and the matrix is not that of the Hamiltonian. *)
Theorem C68_complex_integrals_refuted : exists (P : model_space Cq) (big : Cq -> bool) (pyset : list nat -> list nat) (ovlp : nat -> nat -> nat -> list (list Cq)) (hash : list Z -> Z)
    (h1 : nat -> nat * nat -> nat * nat -> Cq) (h2 : nat * nat -> nat * nat -> nat * nat -> nat * nat -> Cq) (ham s2 : mat) (e e' : list nat),
  proper P /\ gram P ovlp /\ set_like pyset /\ (forall v, big v = false -> v = s0) /\ (forall v, big (sconj v) = big v) /\
  (forall t, In t (w_tables P) -> collision_free (w_uroot P) t) /\ hash_injective P hash /\ hermitian1 h1 /\ symmetric2 h2 /\
  make_ham P ch big pyset (table_of P) ovlp hash h1 h2 = Ok (ham, s2) /\ 0 < m_nroots P /\ in_range (dims_of (w_lroots P) 0) e /\ in_range (dims_of (w_lroots P) 0) e' /\
  ham (states_before (w_lroots P) 0 + colmajor (dims_of (w_lroots P) 0) e) (states_before (w_lroots P) 0 + colmajor (dims_of (w_lroots P) 0) e') <>
  inner Cq (2 * norb (m_nf P) (m_norb P)) (product P 0 e) (hamiltonian Cq (m_nf P) (m_norb P) ch (fun dn p q => h1 (if dn then 1 else 0) p q) h2 (product P 0 e')).
Proof.
  destruct (ok_ex (make_ham c_P ch cbig c_set (table_of c_P) c_ovlp y_hash c_h1 c_h2) c_test c_value) as (ham & s2 & E & V).
  exists c_P, cbig, c_set, c_ovlp, y_hash, c_h1, c_h2, ham, s2, [0], [1].
  split; [exact c_proper|]. split; [exact c_gram|]. split; [exact c_set_like|]. split; [exact cbig_0|]. split; [exact cbig_conj|].
  split; [apply c_free|]. split; [apply c_free|].
  split; [exact c_herm|]. split; [split; [reflexivity|split; [reflexivity|intros; apply ceq_ok; reflexivity]]|]. split; [exact E|]. split; [cbn; lia|].
  split; [vm_compute; repeat constructor|]. split; [vm_compute; repeat constructor|].
  intros Q. apply (f_equal (fun v => ceq v (cz 0 1))) in Q. change (ceq (ham 0 1) (cz 0 1) = ceq c_spec (cz 0 1)) in Q.
  unfold c_test in V. rewrite Q in V. revert V. vm_compute. discriminate.
Qed.
Print Assumptions C68_complex_integrals_refuted.

(** two orbitals and two electrons; with complex CI vectors the squared spin is not hermitian *)
Definition d_ne (f a : nat) : nat * nat := (1, 1).
Definition d_vec (f a i : nat) : vec Cq := fun d => if (i =? 0) && (d =? 6)%N then cz 1 0 else if (i =? 1) && (d =? 9)%N then cz 0 1 else cz 0 0.
Definition d_P : model_space Cq := mkMS 1 (fun _ => 2) d_vec d_ne (fun _ _ => 2) (fun _ _ => 0) 1.
Lemma d_proper : proper d_P.
Proof.
  split; [cbn; lia|]. split; [cbn; lia|]. split; [cbn; intros; lia|]. split; [cbn; intros; lia|].
  intros f a i Hf Hi d Hd. cbn [d_P m_vec m_norb m_ne m_nl] in *. unfold d_vec.
  destruct i as [|[|i]]; [| |lia]; cbn [Nat.eqb andb]; [destruct (N.eqb_spec d 6) as [->|]|destruct (N.eqb_spec d 9) as [->|]]; try (right; vm_compute; split; reflexivity); left; reflexivity.
Qed.
Lemma d_gram : gram d_P c_ovlp.
Proof.
  intros f b k Hf Hb Hk. cbn [d_P m_nf m_nroots m_nl m_ur] in *. split; [split; [reflexivity|intros row [<-|[<-|[]]]; reflexivity]|].
  intros i j Hi Hj. apply ceq_ok. assert (f = 0) by lia. subst f. destruct i as [|[|i]], j as [|[|j]]; try lia; vm_compute; reflexivity.
Qed.
Lemma d_free : (forall t, In t (w_tables d_P) -> collision_free (w_uroot d_P) t) /\ hash_injective d_P y_hash.
Proof. apply free_check_ok. vm_compute. reflexivity. Qed.
Definition d_spec : Cq := inner Cq 4 (product d_P 0 [0]) (s_squared Cq 1 (fun _ => 2) ch (product d_P 0 [1])).
Definition d_test (h s : @mat Cq) : bool := negb (ceq (s 0 1) d_spec) && ceq (s 0 1) (cz 0 0).
Lemma d_value : match make_ham d_P ch cbig c_set (table_of d_P) c_ovlp y_hash (fun _ _ _ => cz 0 0) c_h2 with Ok (h, s) => d_test h s | Raise _ => false end = true.
Proof. vm_compute. reflexivity. Qed.
Theorem C68_complex_spin_refuted : exists (P : model_space Cq) (big : Cq -> bool) (pyset : list nat -> list nat) (ovlp : nat -> nat -> nat -> list (list Cq)) (hash : list Z -> Z)
    (h1 : nat -> nat * nat -> nat * nat -> Cq) (h2 : nat * nat -> nat * nat -> nat * nat -> nat * nat -> Cq) (ham s2 : mat) (e e' : list nat),
  proper P /\ gram P ovlp /\ set_like pyset /\ (forall v, big v = false -> v = s0) /\ (forall v, big (sconj v) = big v) /\
  (forall t, In t (w_tables P) -> collision_free (w_uroot P) t) /\ hash_injective P hash /\ hermitian1 h1 /\ symmetric2 h2 /\
  make_ham P ch big pyset (table_of P) ovlp hash h1 h2 = Ok (ham, s2) /\ 0 < m_nroots P /\ in_range (dims_of (w_lroots P) 0) e /\ in_range (dims_of (w_lroots P) 0) e' /\
  s2 (states_before (w_lroots P) 0 + colmajor (dims_of (w_lroots P) 0) e) (states_before (w_lroots P) 0 + colmajor (dims_of (w_lroots P) 0) e') <>
  inner Cq (2 * norb (m_nf P) (m_norb P)) (product P 0 e) (s_squared Cq (m_nf P) (m_norb P) ch (product P 0 e')).
Proof.
  destruct (ok_ex (make_ham d_P ch cbig c_set (table_of d_P) c_ovlp y_hash (fun _ _ _ => cz 0 0) c_h2) d_test d_value) as (ham & s2 & E & V).
  exists d_P, cbig, c_set, c_ovlp, y_hash, (fun _ _ _ => cz 0 0), c_h2, ham, s2, [0], [1].
  split; [exact d_proper|]. split; [exact d_gram|]. split; [exact c_set_like|]. split; [exact cbig_0|]. split; [exact cbig_conj|].
  split; [apply d_free|]. split; [apply d_free|].
  split; [intros s p q; apply ceq_ok; reflexivity|]. split; [split; [reflexivity|split; [reflexivity|intros; apply ceq_ok; reflexivity]]|]. split; [exact E|]. split; [cbn; lia|].
  split; [vm_compute; repeat constructor|]. split; [vm_compute; repeat constructor|].
  intros Q. apply (f_equal (fun v => ceq v (cz 0 0))) in Q. change (ceq (s2 0 1) (cz 0 0) = ceq d_spec (cz 0 0)) in Q.
  unfold d_test in V. rewrite Q in V. apply andb_true_iff in V as [_ V]. revert V. vm_compute. discriminate.
Qed.
Print Assumptions C68_complex_spin_refuted.

(** nine fragments, of which the second and the last have two orbitals and one electron, in each orbital in turn; the Hamiltonian
    counts electrons in the first orbital of the second and the second orbital of the last *)
Definition n_norb (f : nat) : nat := if (f =? 1) || (f =? 8) then 2 else 0.
Definition n_ne (f a : nat) : nat * nat := if (f =? 1) || (f =? 8) then (1, 0) else (0, 0).
Definition n_nl (f a : nat) : nat := if (f =? 1) || (f =? 8) then 2 else 1.
Definition n_det (f i : nat) : N := if (f =? 1) || (f =? 8) then N.of_nat (4 * (i + 1)) else 0%N.
Definition n_vec (f a i : nat) : vec Qs := fun d => if (d =? n_det f i)%N then zq 1 else zq 0.
Definition n_P : model_space Qs := mkMS 9 n_norb n_vec n_ne n_nl (fun _ _ => 0) 1.
Definition n_ovlp (f b k : nat) : list (list Qs) := if (f =? 1) || (f =? 8) then [[zq 1; zq 0]; [zq 0; zq 1]] else [[zq 1]].
Definition n_h2 (p q r u : nat * nat) : Qs :=
  let a := oeq p (1, 0) && oeq q (1, 0) in let b := oeq r (8, 1) && oeq u (8, 1) in let c := oeq r (1, 0) && oeq u (1, 0) in let d := oeq p (8, 1) && oeq q (8, 1) in
  if a && b || c && d then zq 1 else zq 0.
Definition n_set (l : list nat) : list nat := match list_set l with Ok s => s | Raise _ => nodup Nat.eq_dec l end.
Definition qz (v : Qs) : bool := Qeq_bool (this v) 0.
Lemma qz_ok v : qz v = true -> v = s0.
Proof. intros H. apply Qeq_bool_iff in H. apply Qc_is_canon. rewrite H. reflexivity. Qed.
Definition n_e : list nat := [0; 0; 0; 0; 0; 0; 0; 0; 1].
Definition n_hv : vec Qs := hamiltonian Qs 9 n_norb hq (fun _ _ _ => zq 0) n_h2 (product n_P 0 n_e).
Lemma n_spec : inner Qs 8 (product n_P 0 n_e) n_hv = zq 1.
Proof.
  unfold inner. rewrite (bsum_single Qs (dets 8) _ 144%N).
  - apply Qc_is_canon. vm_compute. reflexivity.
  - apply NoDup_dets.
  - apply in_dets. reflexivity.
  - intros d Hd N. assert (C : forallb (fun d => (d =? 144)%N || qz (product n_P 0 n_e d)) (dets 8) = true) by (vm_compute; reflexivity).
    rewrite forallb_forall in C. specialize (C d Hd). destruct (N.eqb_spec d 144); [congruence|]. apply qz_ok in C. rewrite C. apply (Qcmult_0_l (n_hv d)).
Qed.
Definition n_test (h s : @mat Qs) : bool := qz (h 2 2).
Lemma n_value : match make_ham n_P hq x_big n_set (table_of n_P) n_ovlp y_hash (fun _ _ _ => zq 0) n_h2 with Ok (h, s) => n_test h s | Raise _ => false end = true.
Proof. vm_compute. reflexivity. Qed.
Lemma n_free : (forall t, In t (w_tables n_P) -> collision_free (w_uroot n_P) t) /\ hash_injective n_P y_hash.
Proof. apply free_check_ok. vm_compute. reflexivity. Qed.
Lemma n_gram : gram n_P n_ovlp.
Proof.
  intros f b k Hf Hb Hk. cbn [n_P m_nf m_nroots m_nl m_ur m_norb m_vec] in *.
  assert (C : forallb (fun f => (length (n_ovlp f 0 0) =? n_nl f 0) && forallb (fun row => length row =? n_nl f 0) (n_ovlp f 0 0) && forallb (fun i => forallb (fun j =>
    qz (Qcminus (mat_at (n_ovlp f 0 0) i j) (inner Qs (2 * n_norb f) (n_vec f 0 i) (n_vec f 0 j)))) (seq 0 (n_nl f 0))) (seq 0 (n_nl f 0))) (seq 0 9) = true) by (vm_compute; reflexivity).
  rewrite forallb_forall in C. specialize (C f ltac:(apply in_seq; lia)). apply andb_true_iff in C as [C C3]. apply andb_true_iff in C as [C1 C2].
  split.
  - split; [now apply Nat.eqb_eq|]. intros row I. rewrite forallb_forall in C2. now apply Nat.eqb_eq, C2.
  - intros i j Hi Hj. rewrite forallb_forall in C3. specialize (C3 i ltac:(apply in_seq; lia)). rewrite forallb_forall in C3. specialize (C3 j ltac:(apply in_seq; lia)).
    apply qz_ok in C3. change (mat_at (n_ovlp f b k) i j) with (mat_at (n_ovlp f 0 0) i j).
    replace (mat_at (n_ovlp f 0 0) i j) with (Qcplus (Qcminus (mat_at (n_ovlp f 0 0) i j) (inner Qs (2 * n_norb f) (n_vec f 0 i) (n_vec f 0 j))) (inner Qs (2 * n_norb f) (n_vec f 0 i) (n_vec f 0 j))) by ring.
    rewrite C3. apply Qcplus_0_l.
Qed.
(** With nine fragments or more the entries of a matrix can be put in the places of other states. *)
Theorem C68_nine_fragments_refuted : exists (P : model_space Qs) (big : Qs -> bool) (pyset : list nat -> list nat) (ovlp : nat -> nat -> nat -> list (list Qs)) (hash : list Z -> Z)
    (h2 : nat * nat -> nat * nat -> nat * nat -> nat * nat -> Qs) (ham s2 : mat) (e : list nat),
  m_nf P = 9 /\ m_nroots P = 1 /\ (forall f r, f < m_nf P -> r < m_nroots P -> 0 < m_nl P f (m_ur P f r)) /\
  (forall f a, f < m_nf P -> fst (m_ne P f a) <= m_norb P f /\ snd (m_ne P f a) <= m_norb P f) /\
  (forall f a i, f < m_nf P -> i < m_nl P f a -> has_nelec Qs (m_norb P f) (m_ne P f a) (m_vec P f a i)) /\
  gram P ovlp /\ (forall l s, list_set l = Ok s -> pyset l = s) /\ (forall v, big v = false -> v = s0) /\
  (forall t, In t (w_tables P) -> collision_free (w_uroot P) t) /\ hash_injective P hash /\ symmetric2 h2 /\
  make_ham P hq big pyset (table_of P) ovlp hash (fun _ _ _ => s0) h2 = Ok (ham, s2) /\ in_range (dims_of (w_lroots P) 0) e /\
  ham (states_before (w_lroots P) 0 + colmajor (dims_of (w_lroots P) 0) e) (states_before (w_lroots P) 0 + colmajor (dims_of (w_lroots P) 0) e) <>
  inner Qs (2 * norb (m_nf P) (m_norb P)) (product P 0 e) (hamiltonian Qs (m_nf P) (m_norb P) hq (fun _ _ _ => s0) h2 (product P 0 e)).
Proof.
  destruct (ok_ex (make_ham n_P hq x_big n_set (table_of n_P) n_ovlp y_hash (fun _ _ _ => zq 0) n_h2) n_test n_value) as (ham & s2 & E & V).
  exists n_P, x_big, n_set, n_ovlp, y_hash, n_h2, ham, s2, n_e.
  split; [reflexivity|]. split; [reflexivity|].
  split; [intros f r _ _; cbn [n_P m_nl]; unfold n_nl; destruct (_ || _); lia|].
  split; [intros f a _; cbn [n_P m_ne m_norb]; unfold n_ne, n_norb; destruct (_ || _); cbn; lia|].
  split.
  { intros f a i Hf Hi d Hd. cbn [n_P m_nf m_vec m_norb m_ne m_nl] in *. unfold n_vec, n_det, n_nl, n_ne, n_norb in *. destruct ((f =? 1) || (f =? 8)).
    - destruct (N.eqb_spec d (N.of_nat (4 * (i + 1)))) as [->|]; [right|left; reflexivity]. destruct i as [|[|i]]; [| |lia]; vm_compute; split; reflexivity.
    - destruct (N.eqb_spec d 0) as [->|]; [right|left; reflexivity]. vm_compute. split; reflexivity. }
  split; [exact n_gram|]. split; [intros l s Q; unfold n_set; now rewrite Q|].
  split. { intros v H. unfold x_big in H. destruct (Qc_eq_dec v (Q2Qc 0)) as [Q|]; [exact Q|discriminate]. }
  split; [apply n_free|]. split; [apply n_free|].
  split. { split; [|split]; [| |reflexivity]; intros p q r u; unfold n_h2; cbv zeta; destruct (oeq p (1, 0)), (oeq q (1, 0)), (oeq r (1, 0)), (oeq u (1, 0)), (oeq p (8, 1)), (oeq q (8, 1)), (oeq r (8, 1)), (oeq u (8, 1)); reflexivity. }
  split; [exact E|]. split; [vm_compute; repeat constructor|].
  intros Q. change (ham 2 2 = inner Qs 8 (product n_P 0 n_e) n_hv) in Q. rewrite n_spec in Q. unfold n_test in V. rewrite Q in V. revert V. vm_compute. discriminate.
Qed.
Print Assumptions C68_nine_fragments_refuted.
