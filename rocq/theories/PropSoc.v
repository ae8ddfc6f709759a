(** Theorems about the Hamiltonian with spin-orbit coupling (property C78). *)
From Coq Require Import List NArith ZArith Arith Bool Lia Ring Sorting.Permutation QArith Qcanon.
From Verif Require Import Base BaseFacts Star AddrModel AddrSpec SCModel FockSpec FockFacts FockOps LprodSpec SignsModel SignsFacts LasSigns LasFock ExcModel UexcModel PropUexc StdmModel StdmFacts PropStdm PropSC PropLsis.
From Verif Require Import CrunchModel CrunchSpec CrunchEnd PropCrunch HamModel HamSum HamVals HamLoop HamSpec HamEnd HamOps PropHam StdmShuffled ScatterModel ScatterFacts PropScatter HalfSpec HalfModel HalfFacts HalfDms PropHalf.
From Verif Require Import TransModel TransProofs SpinlessModel SpinlessProd PropSpinless ProdEnergy SocModel SocFacts.
Import ListNotations.
Close Scope Qc_scope. Close Scope Q_scope.
Local Open Scope nat_scope.

(** ** The Hamiltonian matrix of ham: lassi/op_o1/hams2ovlp.py:521-623, for soc=1 and no masks *)
(** an integral with two indices is used for both spins: hams2ovlp.py:38 *)
Definition soc_ham {K : star_ring} (C : ci_set K) (ptr : nat -> nat -> nat) (half : K) (big : K -> bool) (pyset : list nat -> list nat) (ints : nat -> @fmats K) (ovlp : nat -> nat -> nat -> list (list K))
    (hash : list Z -> Z) (h1 : nat -> nat -> K) (h2 : nat -> nat -> nat -> nat -> K) : res (mat * mat) :=
  let nlas := w_nlas (space C) in
  if is_spin_pure (c_nf C) (c_nroots C) (nelec_frs C) then
    let o := flat_orb nlas in
    make_ham (space C) half big pyset ints ovlp hash (fun s p q => pure_h1 h1 (list_sum nlas) s (o p) (o q)) (fun p q r u => h2 (o p) (o q) (o r) (o u))
  else
    let P := space (spinless_ci C ptr) in let o := flat_orb (w_nlas P) in
    make_ham_shuffled P (spinK K (w_nelec (space C))) half big pyset ints ovlp hash (fun _ p q => mapped_h1 h1 nlas (o p) (o q)) (fun p q r u => mapped_h2 h2 nlas (o p) (o q) (o r) (o u)).

(** ** The Hamiltonian between two states of N orbitals: one-electron integrals between all spin orbitals, two-electron integrals without spin *)
Definition soc_element {K : star_ring} (N : nat) (half : K) (h1 : nat -> nat -> K) (h2 : nat -> nat -> nat -> nat -> K) (bra ket : vec K) : K :=
  let so := seq 0 (2 * N) in let orb := seq 0 N in let m := 2 * N in
  sadd (bsum so (fun i => bsum so (fun j => smul (h1 i j) (inner K m bra (cre K m (spin_major N i) (ann K m (spin_major N j) ket))))))
    (bsum (seq 0 2) (fun s => bsum orb (fun p => bsum orb (fun q => bsum (seq 0 2) (fun t => bsum orb (fun r => bsum orb (fun u =>
      smul (smul half (h2 p q r u)) (inner K m bra (cre K m (spo N s p) (cre K m (spo N t r) (ann K m (spo N t u) (ann K m (spo N s q) ket)))))))))))).

Section Sums.
  Variable K : star_ring.
  Add Ring Kr : (sring K).
  Lemma sum_spins N (F : nat -> K) : bsum (seq 0 (2 * N)) F = bsum (seq 0 2) (fun s => bsum (seq 0 N) (fun p => F (s * N + p))).
  Proof.
    replace (2 * N) with (N + N) by lia. rewrite seq_app, bsum_app. rewrite Nat.add_0_l, (seq_shift_add N N), bsum_map. cbn [seq bsum].
    rewrite (bsum_ext K (seq 0 N) (fun p => F (1 * N + p)) (fun p => F (N + p))) by (intros; f_equal; lia). change (fun p => F (0 * N + p)) with (fun p => F p). change (bsum (seq 0 N) (fun p => F p)) with (bsum (seq 0 N) F). change (fun x => F (N + x)) with (fun p => F (N + p)). ring.
  Qed.
  Definition same_spin (N i j : nat) : bool := Bool.eqb (i <? N) (j <? N).
  Lemma sum_pairs N (F : nat -> nat -> K) : bsum (seq 0 (2 * N)) (fun i => bsum (seq 0 (2 * N)) (fun j => if same_spin N i j then F i j else s0)) =
    bsum (seq 0 2) (fun s => bsum (seq 0 N) (fun p => bsum (seq 0 N) (fun q => F (s * N + p) (s * N + q)))).
  Proof.
    rewrite sum_spins. apply bsum_ext. intros s Hs. apply in_seq in Hs. apply bsum_ext. intros p Hp. apply in_seq in Hp. rewrite sum_spins. cbn [seq bsum].
    assert (Z : forall t, t < 2 -> bsum (seq 0 N) (fun q => if same_spin N (s * N + p) (t * N + q) then F (s * N + p) (t * N + q) else s0) = if s =? t then bsum (seq 0 N) (fun q => F (s * N + p) (t * N + q)) else s0).
    { intros t Ht. destruct (Nat.eqb_spec s t) as [->|Ne].
      - apply bsum_ext. intros q Hq. apply in_seq in Hq. replace (same_spin N (t * N + p) (t * N + q)) with true; [reflexivity|]. unfold same_spin. destruct t as [|[|t]]; [| |lia]; destruct (Nat.ltb_spec (0 * N + p) N), (Nat.ltb_spec (0 * N + q) N), (Nat.ltb_spec (1 * N + p) N), (Nat.ltb_spec (1 * N + q) N); try lia; reflexivity.
      - apply bsum_0. intros q Hq. apply in_seq in Hq. replace (same_spin N (s * N + p) (t * N + q)) with false; [reflexivity|]. unfold same_spin. destruct s as [|[|s]], t as [|[|t]]; try lia; cbn [Nat.mul Nat.add]; rewrite ?Nat.add_0_r; destruct (Nat.ltb_spec p N), (Nat.ltb_spec q N), (Nat.ltb_spec (N + p) N), (Nat.ltb_spec (N + q) N); try lia; reflexivity. }
    rewrite (Z 0), (Z 1) by lia. destruct s as [|[|s]]; [| |lia]; cbn [Nat.eqb]; ring.
  Qed.
  Lemma gsum_ups nf n (F : tix -> K) : (forall x, tix_in nf n x -> ups x = false -> F x = s0) ->
    let orbs := HamSum.orbs nf n in gsum nf n F = sadd (bsum orbs (fun p => bsum orbs (fun q => F (X1 0 p q)))) (bsum orbs (fun p => bsum orbs (fun q => bsum orbs (fun r => bsum orbs (fun u => F (X2 0 p q r u)))))).
  Proof.
    intros H orbs. assert (O : forall p, In p orbs -> orb_in nf n p) by (intros p; apply in_orbs).
    unfold gsum, gsum1, gsum2. fold orbs. cbn [seq bsum].
    rewrite (bsum_0 K orbs (fun p => bsum orbs (fun q => F (X1 1 p q)))) by (intros p Ip; apply bsum_0; intros q Iq; apply H; [split; [lia|split; auto]|reflexivity]).
    assert (Z : forall b, b < 4 -> b <> 0 -> bsum orbs (fun p => bsum orbs (fun q => bsum orbs (fun r => bsum orbs (fun u => F (X2 b p q r u))))) = s0).
    { intros b Hb H0. apply bsum_0. intros p Ip. apply bsum_0. intros q Iq. apply bsum_0. intros r Ir. apply bsum_0. intros u Iu. apply H; [repeat split; auto; apply O; assumption|cbn [ups]; now apply Nat.eqb_neq]. }
    rewrite (Z 1), (Z 2), (Z 3) by lia. ring.
  Qed.
End Sums.

(** integrals over real orbitals; one-electron integrals of a hermitian operator *)
Definition hermitian {K : star_ring} (h1 : nat -> nat -> K) : Prop := forall i j, sconj (h1 i j) = h1 j i.
Definition real_symmetric {K : star_ring} (h2 : nat -> nat -> nat -> nat -> K) : Prop :=
  (forall p q r u, h2 p q r u = h2 r u p q) /\ (forall p q r u, h2 p q r u = h2 q p u r) /\ (forall p q r u, sconj (h2 p q r u) = h2 p q r u).

Section Mixed.
  Variables (K : star_ring) (C : ci_set K) (ptr : nat -> nat -> nat).
  Hypothesis Hsh : well_shared C ptr.
  Hypothesis Hfr : first_roots C.
  Hypothesis Hur : forall f r, f < c_nf C -> r < c_nroots C -> c_ur C f r < c_nu C f.
  Local Notation P := (space C).
  Local Notation P2 := (space (spinless_ci C ptr)).
  Local Notation nf := (c_nf C).
  Local Notation n := (c_norb C).
  Local Notation n2 := (fun f => 2 * c_norb C f).
  Local Notation N := (norb nf n).
  Local Notation l := (w_nlas (space C)).
  (** the operator of the original orbitals that spin orbital i stands for *)
  Definition orig (k : bool) (i : nat) : opr := let fx := locate l (i mod N) in (k, (fst fx, down (i / N), snd fx)).
  Lemma orig_ok i : i < 2 * N -> forall k, okop nf n (orig k i) /\ sop n (orig k i) = (k, (fst (sigma l i), false, snd (sigma l i))) /\
    gorb nf n (fst (locate l (i mod N))) (down (i / N)) (snd (locate l (i mod N))) = spin_major N i.
  Proof.
    intros Hi k. assert (Hm : i mod N < N) by (apply Nat.mod_upper_bound; lia). destruct (w_loc P (i mod N) Hm) as [[I1 I2] I3]. cbn [space m_nf m_norb] in *.
    destruct (sigma_is l i Hi) as (_ & _ & _ & E). split; [split; assumption|]. split.
    - rewrite E. unfold orig, sop. cbn [fst snd]. unfold w_nlas at 3. cbn [space m_nf m_norb]. change (list_sum l) with N. do 3 f_equal. destruct (down (i / N)); [|reflexivity]. f_equal.
      unfold w_nlas at 3. cbn [space m_nf m_norb]. rewrite (nth_indep _ 0 (n 0)) by (rewrite map_length, seq_length; exact I1). rewrite map_nth, seq_nth by exact I1. reflexivity.
    - apply I3. apply Nat.div_lt_upper_bound; lia.
  Qed.
  Local Notation el r e r' e' x := (smul (factor K P2 (spinK K (w_nelec P)) r r') (inner K (2 * norb nf n2) (product P2 r e) (gops K nf n2 (xops x) (product P2 r' e')))).
  Lemma el1 r e r' e' i j : r < c_nroots C -> r' < c_nroots C -> i < 2 * N -> j < 2 * N ->
    el r e r' e' (X1 0 (sigma l i) (sigma l j)) = inner K (2 * N) (product P r e) (cre K (2 * N) (spin_major N i) (ann K (2 * N) (spin_major N j) (product P r' e'))).
  Proof.
    intros Hr Hr' Hi Hj. destruct (orig_ok i Hi true) as (I1 & I2 & I3). destruct (orig_ok j Hj false) as (J1 & J2 & J3).
    pose proof (mapped_elem K C ptr Hsh Hfr Hur r e r' e' [orig true i; orig false j] Hr Hr' ltac:(repeat (constructor; [assumption|]); constructor)) as M.
    cbn [map] in M. rewrite I2, J2 in M. unfold xops, cr, an. change (down 0) with false. rewrite M. unfold gops, orig. cbn [fold_right field]. rewrite I3, J3. reflexivity.
  Qed.
  Lemma el2 r e r' e' i j k m : r < c_nroots C -> r' < c_nroots C -> i < 2 * N -> j < 2 * N -> k < 2 * N -> m < 2 * N ->
    el r e r' e' (X2 0 (sigma l i) (sigma l j) (sigma l k) (sigma l m)) = inner K (2 * N) (product P r e) (cre K (2 * N) (spin_major N i) (cre K (2 * N) (spin_major N k) (ann K (2 * N) (spin_major N m) (ann K (2 * N) (spin_major N j) (product P r' e'))))).
  Proof.
    intros Hr Hr' Hi Hj Hk Hm. destruct (orig_ok i Hi true) as (I1 & I2 & I3). destruct (orig_ok j Hj false) as (J1 & J2 & J3). destruct (orig_ok k Hk true) as (K1 & K2 & K3). destruct (orig_ok m Hm false) as (M1 & M2 & M3).
    pose proof (mapped_elem K C ptr Hsh Hfr Hur r e r' e' [orig true i; orig true k; orig false m; orig false j] Hr Hr' ltac:(repeat (constructor; [assumption|]); constructor)) as M.
    cbn [map] in M. rewrite I2, J2, K2, M2 in M. unfold xops, cr, an. change (0 / 2) with 0. change (0 mod 2) with 0. change (down 0) with false. rewrite M. unfold gops, orig. cbn [fold_right field]. rewrite I3, J3, K3, M3. reflexivity.
  Qed.
  Lemma mapped_empty r e p : r < c_nroots C -> orb_in nf n2 p -> empty_at K (gorb nf n2 (fst p) true (snd p)) (product P2 r e).
  Proof.
    intros Hr [Hf Hx]. unfold product. cbn [space m_nf m_norb m_ur m_vec spinless_ci c_nf c_norb c_ur c_ne]. apply (las_empty K nf n2 _ (fun f => fst (c_ne C f (c_ur C f r)) + snd (c_ne C f (c_ur C f r)))); [exact Hf|exact Hx|]. apply civec_nelec.
  Qed.
  Lemma spo_major s p : s < 2 -> p < N -> s * N + p < 2 * N /\ spin_major N (s * N + p) = spo N s p.
  Proof.
    intros Hs Hp. split; [destruct s as [|[|s]]; lia|]. unfold spin_major. rewrite Nat.add_comm, Nat.div_add, Nat.mod_add, Nat.div_small, Nat.mod_small by lia. reflexivity.
  Qed.
  Variables (half : K) (h1 : nat -> nat -> K) (h2 : nat -> nat -> nat -> nat -> K).
  Hypothesis H1 : hermitian h1.
  Hypothesis H2 : real_symmetric h2.
  Local Notation o := (flat_orb (w_nlas P2)).
  Local Notation g1 := (fun (_ : nat) p q => mapped_h1 h1 l (o p) (o q)).
  Local Notation g2 := (fun p q r u => mapped_h2 h2 l (o p) (o q) (o r) (o u)).
  Add Ring Kr2 : (sring K).
  Lemma gsum_mapped r e r' e' : r < c_nroots C -> r' < c_nroots C ->
    gsum nf n2 (fun x => smul (hx K half g1 g2 x) (el r e r' e' x)) = soc_element N half (fun i j => sconj (h1 i j)) h2 (product P r e) (product P r' e').
  Proof.
    intros Hr Hr'. rewrite gsum_ups.
    2:{ intros x Hx Hu. rewrite (inner_zero K _ (product P2 r e)) by (apply no_downs; [intros p Hp; now apply mapped_empty|exact Hx|exact Hu]). ring. }
    pose proof (sigma_perm nf n) as SP. cbv zeta in SP. fold (w_nlas P) in SP. change (list_sum (map n (seq 0 nf))) with N in SP. change (map n (seq 0 nf)) with l in SP.
    assert (Re : forall F : nat * nat -> K, bsum (HamSum.orbs nf n2) F = bsum (seq 0 (2 * N)) (fun i => F (sigma l i))) by (intros F; rewrite <- (bsum_perm K _ _ F SP); apply bsum_map).
    assert (Ix : forall i, i < 2 * N -> nth (o (sigma l i)) (soc_ix l) 0 = i) by (intros i Hi; rewrite nlas_double; now apply flat_ix).
    unfold soc_element. f_equal.
    - rewrite Re. apply bsum_ext. intros i Ii. apply in_seq in Ii. rewrite Re. apply bsum_ext. intros j Ij. apply in_seq in Ij. rewrite el1 by (assumption || lia). cbn [hx]. unfold mapped_h1. rewrite !Ix by lia. now rewrite H1.
    - transitivity (bsum (seq 0 (2 * N)) (fun i => bsum (seq 0 (2 * N)) (fun j => if same_spin N i j then bsum (seq 0 (2 * N)) (fun k => bsum (seq 0 (2 * N)) (fun m => if same_spin N k m then
        smul (smul half (h2 (if i <? N then i else i - N) (if j <? N then j else j - N) (if k <? N then k else k - N) (if m <? N then m else m - N)))
          (inner K (2 * N) (product P r e) (cre K (2 * N) (spin_major N i) (cre K (2 * N) (spin_major N k) (ann K (2 * N) (spin_major N m) (ann K (2 * N) (spin_major N j) (product P r' e'))))))
        else s0)) else s0))).
      + rewrite Re. apply bsum_ext. intros i Ii. apply in_seq in Ii. rewrite Re. apply bsum_ext. intros j Ij. apply in_seq in Ij. rewrite Re.
        assert (T : forall k m, k < 2 * N -> m < 2 * N -> smul (hx K half g1 g2 (X2 0 (sigma l i) (sigma l j) (sigma l k) (sigma l m))) (el r e r' e' (X2 0 (sigma l i) (sigma l j) (sigma l k) (sigma l m))) =
          if same_spin N i j && same_spin N k m then smul (smul half (h2 (if i <? N then i else i - N) (if j <? N then j else j - N) (if k <? N then k else k - N) (if m <? N then m else m - N)))
          (inner K (2 * N) (product P r e) (cre K (2 * N) (spin_major N i) (cre K (2 * N) (spin_major N k) (ann K (2 * N) (spin_major N m) (ann K (2 * N) (spin_major N j) (product P r' e')))))) else s0).
        { intros k m Hk Hm. rewrite el2 by (assumption || lia). cbn [hx]. unfold mapped_h2, blocked_h2. rewrite !Ix by lia. change (list_sum l) with N. unfold same_spin.
          destruct (i <? N), (j <? N), (k <? N), (m <? N); cbn [Bool.eqb andb]; first [f_equal; f_equal; apply (proj1 (proj2 H2))|ring]. }
        destruct (same_spin N i j); cbn [andb] in T.
        * apply bsum_ext. intros k Ik. apply in_seq in Ik. rewrite Re. apply bsum_ext. intros m Im. apply in_seq in Im. apply T; lia.
        * apply bsum_0. intros k Ik. apply in_seq in Ik. rewrite Re. apply bsum_0. intros m Im. apply in_seq in Im. apply T; lia.
      + rewrite sum_pairs. apply bsum_ext. intros s Is. apply in_seq in Is. apply bsum_ext. intros p Ip. apply in_seq in Ip. apply bsum_ext. intros q Iq. apply in_seq in Iq. rewrite sum_pairs.
        apply bsum_ext. intros t It. apply in_seq in It. apply bsum_ext. intros v Iv. apply in_seq in Iv. apply bsum_ext. intros u Iu. apply in_seq in Iu.
        assert (Or : forall a x, a < 2 -> x < N -> (if a * N + x <? N then a * N + x else a * N + x - N) = x) by (intros [|[|a]] x Ha Hx; [| |lia]; destruct (Nat.ltb_spec (0 * N + x) N), (Nat.ltb_spec (1 * N + x) N); lia).
        rewrite !Or by lia. destruct (spo_major s p) as [_ ->]; [lia|lia|]. destruct (spo_major s q) as [_ ->]; [lia|lia|]. destruct (spo_major t v) as [_ ->]; [lia|lia|]. destruct (spo_major t u) as [_ ->]; [lia|lia|]. reflexivity.
  Qed.
End Mixed.

Lemma bool_eqb_sym a b : Bool.eqb a b = Bool.eqb b a.
Proof. destruct a, b; reflexivity. Qed.
(** Rootspaces with different numbers of electrons of each spin: the first matrix holds <bra|H|ket> between the original product states for
    all spin orbitals, also the integrals between orbitals of different spins; H has the complex conjugates of the one-electron integrals. *)
Theorem C78_soc_mixed : forall (K : star_ring) (C : ci_set K) (ptr : nat -> nat -> nat) (half : K) (big : K -> bool) (pyset : list nat -> list nat) (ints : nat -> @fmats K) (ovlp : nat -> nat -> nat -> list (list K))
    (hash : list Z -> Z) (h1 : nat -> nat -> K) (h2 : nat -> nat -> nat -> nat -> K), let P := space (spinless_ci C ptr) in
  well_shared C ptr -> first_roots C -> (forall f r, f < c_nf C -> r < c_nroots C -> c_ur C f r < c_nu C f) ->
  proper P -> (forall f, f < m_nf P -> exact K (m_norb P) (m_vec P) (m_ne P) (m_nl P) f (ints f)) -> gram P ovlp -> set_like pyset ->
  sadd half half = s1 -> (forall v, big v = false -> v = s0) -> (forall v, big (sconj v) = big v) ->
  (forall t, In t (w_tables P) -> collision_free (w_uroot P) t) -> hash_injective P hash -> hermitian h1 -> real_symmetric h2 ->
  is_spin_pure (c_nf C) (c_nroots C) (nelec_frs C) = false ->
  exists ham s2, soc_ham C ptr half big pyset ints ovlp hash h1 h2 = Ok (ham, s2) /\
    forall r e r' e', r < c_nroots C -> r' < c_nroots C -> in_range (dims_of (w_lroots (space C)) r) e -> in_range (dims_of (w_lroots (space C)) r') e' ->
      ham (number (space C) r e) (number (space C) r' e') = soc_element (norb (c_nf C) (c_norb C)) half (fun i j => sconj (h1 i j)) h2 (product (space C) r e) (product (space C) r' e').
Proof.
  intros K C ptr half big pyset ints ovlp hash h1 h2 P Hsh Hfr Hur Pp Hex Hg Hset Hhalf Hbig Hbc Hcf Hh H1 H2 Hpure.
  set (o := flat_orb (w_nlas P)). set (g1 := fun (_ : nat) p q => mapped_h1 h1 (w_nlas (space C)) (o p) (o q)). set (g2 := fun p q r u => mapped_h2 h2 (w_nlas (space C)) (o p) (o q) (o r) (o u)).
  destruct H2 as (Hp & Ht & Hr).
  destruct (both_shuffled K P (spinK K (w_nelec (space C))) half big pyset ints ovlp hash g1 g2) as ([ham s2] & E & V); try assumption.
  - intros r. unfold spinK. apply sign_real.
  - intros p q r u. unfold g2, mapped_h2, blocked_h2. rewrite andb_comm. destruct (_ && _); [apply Hp|reflexivity].
  - intros p q r u. unfold g2, mapped_h2, blocked_h2. rewrite (bool_eqb_sym (nth (o p) _ 0 <? _)), (bool_eqb_sym (nth (o r) _ 0 <? _)). destruct (_ && _); [apply Ht|reflexivity].
  - exists ham, s2. split; [unfold soc_ham; rewrite Hpure; exact E|]. intros r e r' e' Lr Lr' R R'. destruct (V r e r' e' Lr Lr' R R') as [V1 _]. cbn [fst] in V1.
    transitivity (gsum (m_nf P) (m_norb P) (fun x => smul (hx K half g1 g2 x) (smul (factor K P (spinK K (w_nelec (space C))) r r') (inner K (2 * norb (m_nf P) (m_norb P)) (product P r e) (gops K (m_nf P) (m_norb P) (xops x) (product P r' e')))))).
    + apply V1. intros [s p q|b p q v u]; cbn [hx tix_tr].
      * unfold g1, mapped_h1. apply H1.
      * rewrite sconj_mul, (half_real K half Hhalf). f_equal. unfold g2, mapped_h2, blocked_h2. rewrite (bool_eqb_sym (nth (o p) _ 0 <? _)), (bool_eqb_sym (nth (o v) _ 0 <? _)). destruct (_ && _); [now rewrite Hr, Ht|apply sconj_0].
    + apply (gsum_mapped K C ptr Hsh Hfr Hur half h1 h2 H1 (conj Hp (conj Ht Hr)) r e r' e' Lr Lr').
Qed.
Print Assumptions C78_soc_mixed.

(** *** From the CI vectors.  ham: hams2ovlp.py:588-612; the tables of each fragment are those of frag.make_ints *)
Definition no_mats {K : star_ring} : @fmats K := mkFmats (fun _ _ _ => None) (fun _ _ _ => None) (fun _ _ _ => None) (fun _ _ => None) (fun _ _ => None) (fun _ _ => None).
Definition soc_ham_of_ci {K : star_ring} (C : ci_set K) (ptr : nat -> nat -> nat) (half : K) (small big : K -> bool) (pyset : list nat -> list nat) (hash : list Z -> Z)
    (h1 : nat -> nat -> K) (h2 : nat -> nat -> nat -> nat -> K) : res (mat * mat) :=
  let C' := if is_spin_pure (c_nf C) (c_nroots C) (nelec_frs C) then C else spinless_ci C ptr in
  do l <- tables C' small ;; soc_ham C ptr half big pyset (fun f => nth f l no_mats) (frag_ovlp C') hash h1 h2.
Lemma tables_fine (K : star_ring) (C : ci_set K) (small : K -> bool) : (forall x : K, sconj x = x) -> small s0 = true -> ci_ok C ->
  proper (space C) /\ gram (space C) (frag_ovlp C) /\ exists l, tables C small = Ok l /\ forall f, f < c_nf C -> exact K (c_norb C) (m_vec (space C)) (c_ne C) (c_nl C) f (nth f l no_mats).
Proof.
  intros Hr Hs (H8 & Hn & Hok & Hur). split; [|split].
  - split; [exact H8|]. split; [exact Hn|]. cbn [space m_nf m_nl m_ne m_norb m_vec m_ur m_nroots]. split; [|split].
    + intros f r Hf Hr'. apply (Hok f Hf). now apply Hur.
    + intros f a Hf Ha. apply (Hok f Hf). now apply (Hok f Hf).
    + intros f a i Hf Hi. apply civec_nelec.
  - apply C64_overlap.
  - unfold tables. destruct (mapM_all (frag_tables C small) (fun f M => exact K (c_norb C) (m_vec (space C)) (c_ne C) (c_nl C) f M) (seq 0 (c_nf C))) as (l & E & L & I).
    + intros f Hf. apply in_seq in Hf. apply C64_tables; auto. apply Hok. lia.
    + exists l. split; [exact E|]. intros f Hf. rewrite seq_length in I. specialize (I f 0 no_mats Hf). rewrite seq_nth in I by exact Hf. exact I.
Qed.
Lemma spinless_ok (K : star_ring) (C : ci_set K) ptr : ci_ok C -> ci_ok (spinless_ci C ptr).
Proof.
  intros (H8 & Hn & Hok & Hur). split; [exact H8|]. split; [exact Hn|]. split; [|exact Hur]. intros f Hf. destruct (Hok f Hf) as (A & B & D). split; [exact A|]. split; [exact B|]. intros u Hu. destruct (D u Hu). cbn [spinless_ci c_ne c_norb spinless_ne fst snd]. lia.
Qed.
Lemma soc_element_ext {K : star_ring} N (half : K) h1 h1' h2 bra ket : (forall i j, h1 i j = h1' i j) -> soc_element N half h1 h2 bra ket = soc_element N half h1' h2 bra ket.
Proof. intros H. unfold soc_element. f_equal. apply bsum_ext. intros i _. apply bsum_ext. intros j _. now rewrite H. Qed.

(** In real arithmetic, from the CI vectors of the fragments. *)
Theorem C78_mixed_of_ci : forall (K : star_ring) (C : ci_set K) (ptr : nat -> nat -> nat) (half : K) (small big : K -> bool) (pyset : list nat -> list nat) (hash : list Z -> Z)
    (h1 : nat -> nat -> K) (h2 : nat -> nat -> nat -> nat -> K), let P := space (spinless_ci C ptr) in
  (forall x : K, sconj x = x) -> ci_ok C -> well_shared C ptr -> first_roots C -> small s0 = true -> set_like pyset -> sadd half half = s1 -> (forall v, big v = false -> v = s0) ->
  (forall t, In t (w_tables P) -> collision_free (w_uroot P) t) -> hash_injective P hash -> hermitian h1 -> real_symmetric h2 ->
  is_spin_pure (c_nf C) (c_nroots C) (nelec_frs C) = false ->
  exists ham s2, soc_ham_of_ci C ptr half small big pyset hash h1 h2 = Ok (ham, s2) /\
    forall r e r' e', r < c_nroots C -> r' < c_nroots C -> in_range (dims_of (w_lroots (space C)) r) e -> in_range (dims_of (w_lroots (space C)) r') e' ->
      ham (number (space C) r e) (number (space C) r' e') = soc_element (norb (c_nf C) (c_norb C)) half h1 h2 (product (space C) r e) (product (space C) r' e').
Proof.
  intros K C ptr half small big pyset hash h1 h2 P Hreal Hci Hsh Hfr Hs Hset Hhalf Hbig Hcf Hh H1 H2 Hpure.
  destruct (tables_fine K (spinless_ci C ptr) small Hreal Hs (spinless_ok K C ptr Hci)) as (Pp & Hg & l & E & Hex).
  unfold soc_ham_of_ci. rewrite Hpure, E. cbn [bind].
  destruct (C78_soc_mixed K C ptr half big pyset (fun f => nth f l no_mats) (frag_ovlp (spinless_ci C ptr)) hash h1 h2) as (ham & s2 & E' & V); try assumption; [apply Hci|intros v; now rewrite Hreal|].
  exists ham, s2. split; [exact E'|]. intros r e r' e' Hr Hr' R R'. rewrite V by assumption. apply soc_element_ext. intros i j. apply Hreal.
Qed.
Print Assumptions C78_mixed_of_ci.

(** Two fragments of one orbital in four rootspaces with spins (2,0), (1,1), (1,1), (0,2), as in C67_example: the Hamiltonian with integrals
    between spin up and spin down, all 25 elements of it. *)
Definition so_h1 (i j : nat) : Qs := zq (Z.of_nat ((i + 1) * (j + 1) mod 7) - 2).
Definition so_h2 (p q r u : nat) : Qs := zq (Z.of_nat ((p + q + 1) * (r + u + 1))).
Lemma so_herm : hermitian so_h1.
Proof. intros i j. unfold so_h1. rewrite (Nat.mul_comm (j + 1)). reflexivity. Qed.
Lemma so_sym : real_symmetric so_h2.
Proof. split; [|split]; intros p q r u; unfold so_h2; [now rewrite Nat.mul_comm|now rewrite (Nat.add_comm p q), (Nat.add_comm r u)|reflexivity]. Qed.
Lemma so_free : (forall t, In t (w_tables (space (spinless_ci sp_C sp_ptr))) -> collision_free (w_uroot (space (spinless_ci sp_C sp_ptr))) t) /\ hash_injective (space (spinless_ci sp_C sp_ptr)) y_hash.
Proof. apply free_check_ok. vm_compute. reflexivity. Qed.
Definition so_out := soc_ham_of_ci sp_C sp_ptr hq (fun v => negb (x_big v)) x_big c_set y_hash so_h1 so_h2.
Definition so_mat : list (list Z) := [[0; 0; 8; -24; 0]; [0; 0; 12; -36; 0]; [8; 12; 32; 60; -80]; [-24; -36; 60; 0; 120]; [0; 0; -80; 120; -400]]%Z.
Definition so_state (i : nat) : vec Qs := let a := nth i sp_states (0, []) in product (space sp_C) (fst a) (snd a).
Example C78_example : ci_ok sp_C /\ well_shared sp_C sp_ptr /\ first_roots sp_C /\ is_spin_pure 2 4 (nelec_frs sp_C) = false /\
  match so_out with Ok (h, _) => forallb (fun i => forallb (fun j => z_eq (h i j) (zq (nth j (nth i so_mat []) 0%Z))) (seq 0 5)) (seq 0 5) | Raise _ => false end = true /\
  forallb (fun i => forallb (fun j => z_eq (soc_element 2 hq so_h1 so_h2 (so_state i) (so_state j)) (zq (nth j (nth i so_mat []) 0%Z))) (seq 0 5)) (seq 0 5) = true.
Proof. destruct C67_example as (E1 & E2 & E3 & E4 & _). split; [exact E1|]. split; [exact E2|]. split; [exact E3|]. split; [exact E4|]. split; vm_compute; reflexivity. Qed.

(** The second matrix is not that of the squared spin: all electrons are counted as spin up, so a closed shell of two electrons comes out as
    a triplet. *)
Theorem C78_s2_refuted : exists (C : ci_set Qs) (ptr : nat -> nat -> nat) (half : Qs) (small big : Qs -> bool) (pyset : list nat -> list nat) (hash : list Z -> Z)
    (h1 : nat -> nat -> Qs) (h2 : nat -> nat -> nat -> nat -> Qs) (ham s2 : mat) (r : nat) (e : list nat),
  (ci_ok C /\ well_shared C ptr /\ first_roots C /\ small s0 = true /\ set_like pyset /\ sadd half half = s1 /\ (forall v, big v = false -> v = s0)) /\
  (forall t, In t (w_tables (space (spinless_ci C ptr))) -> collision_free (w_uroot (space (spinless_ci C ptr))) t) /\ hash_injective (space (spinless_ci C ptr)) hash /\ hermitian h1 /\ real_symmetric h2 /\
  soc_ham_of_ci C ptr half small big pyset hash h1 h2 = Ok (ham, s2) /\ r < c_nroots C /\ in_range (dims_of (w_lroots (space C)) r) e /\
  (forall f, f < c_nf C -> nelec_frs C f r = (1, 1) \/ nelec_frs C f r = (0, 0)) /\
  let v := product (space C) r e in let m := 2 * norb (c_nf C) (c_norb C) in
  inner Qs m v (s_squared Qs (c_nf C) (c_norb C) half v) = s0 /\ s2 (number (space C) r e) (number (space C) r e) = smul (zq 2) (inner Qs m v v) /\ inner Qs m v v <> s0.
Proof.
  assert (T : match so_out with Ok (h, s) => z_eq (s 3 3) (zq 18) | Raise _ => false end = true) by (vm_compute; reflexivity).
  destruct (ok_ex so_out (fun h s => z_eq (s 3 3) (zq 18)) T) as (ham & s2 & E & V).
  destruct C67_example as (E1 & E2 & E3 & E4 & _). destruct so_free as [F1 F2].
  assert (Eq : forall x y : Qs, z_eq x y = true -> x = y) by (intros x y H; apply Qc_is_canon, Qeq_bool_iff, H).
  exists sp_C, sp_ptr, hq, (fun v => negb (x_big v)), x_big, c_set, y_hash, so_h1, so_h2, ham, s2, 2, [0; 0].
  split; [|split; [exact F1|split; [exact F2|split; [exact so_herm|split; [exact so_sym|split; [exact E|split; [cbn; lia|split; [vm_compute; repeat constructor|split]]]]]]]].
  - split; [exact E1|]. split; [exact E2|]. split; [exact E3|]. split; [reflexivity|]. split; [exact c_set_like|]. split; [apply Eq; reflexivity|]. intros v. unfold x_big. destruct (Qc_eq_dec v (Q2Qc 0)) as [->|]; [reflexivity|discriminate].
  - intros f Hf. destruct f as [|[|f]]; [left|right|cbn in Hf; lia]; reflexivity.
  - cbv zeta. split; [apply Eq; vm_compute; reflexivity|]. split; [|intros H; apply (f_equal this) in H; vm_compute in H; discriminate H].
    transitivity (zq 18); [exact (Eq _ _ V)|apply Eq; vm_compute; reflexivity].
Qed.
Print Assumptions C78_s2_refuted.
