(** Facts for the Hamiltonian with spin-orbit coupling: matrices for any sign factors, no electrons with spin down in mapped states, indices. *)
From Coq Require Import List NArith ZArith Arith Bool Lia Ring Sorting.Permutation.
From Verif Require Import Base BaseFacts Star AddrModel AddrSpec SCModel FockSpec FockFacts FockOps LprodSpec SignsModel SignsFacts LasSigns LasFock ExcModel UexcModel PropUexc StdmModel StdmFacts PropStdm PropSC PropLsis.
From Verif Require Import CrunchModel CrunchSpec PropCrunch HamModel HamSum HamVals HamLoop HamSpec HamEnd HamOps PropHam StdmShuffled ScatterModel ScatterFacts PropScatter.
From Verif Require Import TransModel TransProofs SpinlessModel PropSpinless SocModel.
Import ListNotations.
Local Open Scope nat_scope.

Section Both.
  Variables (K : star_ring) (P : model_space K) (S : nat -> K) (half : K) (big : K -> bool) (pyset : list nat -> list nat) (ints : nat -> @fmats K) (ovlp : nat -> nat -> nat -> list (list K)).
  Variables (hash : list Z -> Z) (h1 : nat -> nat * nat -> nat * nat -> K) (h2 : nat * nat -> nat * nat -> nat * nat -> nat * nat -> K).
  Hypothesis HS : forall r, sconj (S r) = S r.
  Hypothesis Pp : proper P.
  Hypothesis Hex : forall f, f < m_nf P -> exact K (m_norb P) (m_vec P) (m_ne P) (m_nl P) f (ints f).
  Hypothesis Hg : gram P ovlp.
  Hypothesis Hset : set_like pyset.
  Hypothesis Hhalf : sadd half half = s1.
  Hypothesis Hbig : forall v, big v = false -> v = s0.
  Hypothesis Hbc : forall v, big (sconj v) = big v.
  Hypothesis Hcf : forall t, In t (w_tables P) -> collision_free (w_uroot P) t.
  Hypothesis Hhash : hash_injective P hash.
  Hypothesis Hpair : forall p q r u, h2 p q r u = h2 r u p q.
  Hypothesis Htr : forall p q r u, h2 p q r u = h2 q p u r.
  Local Notation nf := (m_nf P).
  Local Notation n := (m_norb P).
  Local Notation el r e r' e' := (fun x => smul (factor K P S r r') (inner K (2 * norb nf n) (product P r e) (gops K nf n (xops x) (product P r' e')))).
  Lemma both_shuffled : exists hs, make_ham_shuffled P S half big pyset ints ovlp hash h1 h2 = Ok hs /\
    forall r e r' e', r < m_nroots P -> r' < m_nroots P -> in_range (dims_of (w_lroots P) r) e -> in_range (dims_of (w_lroots P) r') e' ->
      let A := states_before (w_lroots P) r + colmajor (dims_of (w_lroots P) r) e in let B := states_before (w_lroots P) r' + colmajor (dims_of (w_lroots P) r') e' in
      ((forall x, sconj (hx K half h1 h2 x) = hx K half h1 h2 (tix_tr x)) -> fst hs A B = gsum nf n (fun x => smul (hx K half h1 h2 x) (el r e r' e' x))) /\
      ((forall x : K, sconj x = x) -> snd hs A B = gsum nf n (fun x => smul (sx K half x) (el r e r' e' x))).
  Proof.
    destruct (contracted_shuffled P half big (fun _ => false) pyset ints ovlp hash h1 h2 Pp Hex Hg Hset Hhalf eq_refl Hcf Hhash Hpair Htr S) as (hs & t0 & E & Et & V).
    destruct (shuffled_densities K P S half big (fun _ => false) pyset ints ovlp HS Pp Hex Hg Hset Hhalf eq_refl Hbig Hbc Hcf) as (T & Et' & VT).
    assert (Q : T = add_transpose tix_tr t0) by congruence. exists hs. split; [exact E|].
    intros r e r' e' Hr Hr' R R'. cbv zeta. destruct (V r e r' e' Hr Hr' R R') as [V1 V2]. unfold address in V1, V2.
    assert (VT' : forall x, tix_in nf n x -> sadd (t0 (states_before (w_lroots P) r + colmajor (dims_of (w_lroots P) r) e) (states_before (w_lroots P) r' + colmajor (dims_of (w_lroots P) r') e') x)
      (sconj (t0 (states_before (w_lroots P) r' + colmajor (dims_of (w_lroots P) r') e') (states_before (w_lroots P) r + colmajor (dims_of (w_lroots P) r) e) (tix_tr x))) = el r e r' e' x).
    { intros x Hx. rewrite <- (VT r e r' e' x Hr Hr' R R' Hx), Q. reflexivity. }
    set (A := states_before (w_lroots P) r + colmajor (dims_of (w_lroots P) r) e) in *. set (B := states_before (w_lroots P) r' + colmajor (dims_of (w_lroots P) r') e') in *.
    assert (Gen : forall c : tix -> K, (forall x, sconj (c x) = c (tix_tr x)) ->
      sadd (gsum nf n (fun x => smul (c x) (t0 A B x))) (sconj (gsum nf n (fun x => smul (c x) (t0 B A x)))) = gsum nf n (fun x => smul (c x) (el r e r' e' x))).
    { intros c Hc. rewrite gsum_conj. rewrite <- (gsum_tr nf n (fun x => sconj (smul (c x) (t0 B A x)))). rewrite <- gsum_add.
      apply gsum_ext_in. intros x Hx. rewrite <- (VT' x Hx). rewrite sconj_mul, Hc.
      replace (tix_tr (tix_tr x)) with x by (destruct x; reflexivity).
      apply mul_add_l. }
    split.
    - intros Hh. rewrite V1. exact (Gen _ Hh).
    - intros Hreal. rewrite V2. transitivity (sadd (gsum nf n (fun x => smul (coef half h1 h2 false x) (t0 A B x))) (sconj (gsum nf n (fun x => smul (coef half h1 h2 false x) (t0 B A x))))); [now rewrite Hreal|].
      apply (Gen (sx K half)). intros x. rewrite Hreal. symmetry. destruct x as [s p q|b p q r0 u]; cbn [tix_tr sx].
      + now rewrite oeq_sym.
      + rewrite (oeq_sym q p), (oeq_sym u r0), (oeq_sym q r0), (oeq_sym u p), (andb_comm (oeq r0 q)). reflexivity.
  Qed.
End Both.

(** ** No electrons with spin down *)
Section Empty.
  Variable K : star_ring.
  Add Ring Kr : (sring K).
  Definition empty_at (p : nat) (v : vec K) : Prop := forall d, bt d p = true -> v d = s0.
  Lemma sg_0 b : sg K b s0 = s0.
  Proof. unfold sg. destruct b; ring. Qed.
  Lemma ann_empty m p v d : empty_at p v -> ann K m p v d = s0.
  Proof. intros H. unfold ann. destruct (bt d p); [reflexivity|]. rewrite H by (rewrite bt_sb, Nat.eqb_refl; reflexivity). apply sg_0. Qed.
  Lemma ann_keeps m p q v : empty_at p v -> empty_at p (ann K m q v).
  Proof. intros H d Hd. unfold ann. destruct (bt d q); [reflexivity|]. rewrite H by (rewrite bt_sb, Hd; apply orb_true_r). apply sg_0. Qed.
  Lemma ann_zero m p (v : vec K) d : (forall e, v e = s0) -> ann K m p v d = s0.
  Proof. intros H. unfold ann. destruct (bt d p); [reflexivity|]. rewrite H. apply sg_0. Qed.
  Lemma cre_zero m p (v : vec K) d : (forall e, v e = s0) -> cre K m p v d = s0.
  Proof. intros H. unfold cre. destruct (bt d p); [|reflexivity]. rewrite H. apply sg_0. Qed.
  Lemma inner_zero m (u v : vec K) : (forall e, v e = s0) -> inner K m u v = s0.
  Proof. intros H. unfold inner. apply bsum_0. intros d _. rewrite H. ring. Qed.
  Lemma bprod_zero l (F : nat -> K) x : In x l -> F x = s0 -> LprodSpec.bprod K l F = s0.
  Proof. intros I E. induction l as [|y l IH]; [contradiction|]. unfold LprodSpec.bprod in *. cbn [fold_right]. destruct I as [->|I]; [rewrite E; ring|rewrite IH by exact I; ring]. Qed.
  Lemma count_pos (g : nat -> bool) l x : In x l -> g x = true -> LprodSpec.count g l <> 0.
  Proof. intros I E Z. unfold LprodSpec.count in Z. assert (X : In x (filter g l)) by (apply filter_In; auto). destruct (filter g l); [contradiction|discriminate]. Qed.
  Variables (nf : nat) (n : nat -> nat).
  Lemma las_empty (v : nat -> vec K) (ne : nat -> nat) f l : f < nf -> l < n f -> has_nelec K (n f) (ne f, 0) (v f) -> empty_at (gorb nf n f true l) (las_state K nf n v).
  Proof.
    intros Hf Hl H d Hd. unfold las_state. apply (bprod_zero _ _ f); [apply in_seq; lia|]. destruct (H _ (frag_det_lt nf n f d)) as [Z|[_ Z]]; [exact Z|]. exfalso. cbn [snd] in Z. revert Z. apply (count_pos _ _ l); [apply in_seq; lia|].
    rewrite <- (bt_frag_det nf n f d true l Hf Hl) in Hd. exact Hd.
  Qed.
  Definition ups (x : tix) : bool := match x with X1 s _ _ => s =? 0 | X2 b _ _ _ _ => b =? 0 end.
  Lemma no_downs (w : vec K) x : (forall p, orb_in nf n p -> empty_at (gorb nf n (fst p) true (snd p)) w) -> tix_in nf n x -> ups x = false -> forall d, gops K nf n (xops x) w d = s0.
  Proof.
    intros H Hx Hu. destruct x as [s p q|b p q r u]; cbn [ups] in Hu; apply Nat.eqb_neq in Hu; cbn [xops gops fold_right cr an field].
    - destruct Hx as (_ & _ & Hq). intros d. apply cre_zero. intros e. apply ann_empty. unfold down. rewrite (proj2 (Nat.eqb_neq s 0) Hu). cbn [negb]. now apply H.
    - destruct Hx as (Hb & _ & Hq & _ & Hr). intros d. apply cre_zero. intros e. apply cre_zero. intros g. destruct (Nat.eq_dec (b / 2) 0) as [E|E].
      + assert (b mod 2 <> 0) by (destruct b as [|[|[|[|b]]]]; cbn in *; lia). apply ann_empty, ann_keeps. unfold down at 1. rewrite (proj2 (Nat.eqb_neq (b mod 2) 0)) by assumption. cbn [negb]. now apply H.
      + apply ann_zero. intros k. apply ann_empty. unfold down. rewrite (proj2 (Nat.eqb_neq (b / 2) 0)) by assumption. cbn [negb]. now apply H.
  Qed.
End Empty.

(** ** Spin orbitals and orbitals of the mapped fragments *)
Section Index.
  Variable l : list nat.
  Local Notation N := (list_sum l).
  Local Notation l2 := (map (Nat.mul 2) l).
  Local Notation idx := (spin_shuffle_idx l).
  Definition sigma (i : nat) : nat * nat := locate l2 (nth i idx 0).
  Lemma idx_length : length idx = 2 * N.
  Proof. rewrite idx_blocks, app_length, !blocks_length. lia. Qed.
  Lemma sigma_is i : i < 2 * N -> let fx := locate l (i mod N) in nth i idx 0 < 2 * N /\ fst fx < length l /\ snd fx < nth (fst fx) l 0 /\ sigma i = (fst fx, (if down (i / N) then nth (fst fx) l 0 else 0) + snd fx).
  Proof.
    intros Hi fx. destruct (idx_locate l i Hi) as [H1 H2]. assert (Hm : i mod N < N) by (apply Nat.mod_upper_bound; lia). destruct (locate_spec l (i mod N) Hm) as (A & B & _). split; [exact H1|]. split; [exact A|]. split; [exact B|exact H2].
  Qed.
  Lemma sigma_inj i j : i < 2 * N -> j < 2 * N -> sigma i = sigma j -> i = j.
  Proof.
    intros Hi Hj E. destruct (sigma_is i Hi) as (_ & _ & B1 & E1). destruct (sigma_is j Hj) as (_ & _ & B2 & E2). rewrite E1, E2 in E. injection E as Ef Ex. rewrite <- Ef in *.
    assert (Di : i / N < 2) by (apply Nat.div_lt_upper_bound; lia). assert (Dj : j / N < 2) by (apply Nat.div_lt_upper_bound; lia).
    assert (X : i / N = j / N /\ snd (locate l (i mod N)) = snd (locate l (j mod N))) by (destruct (i / N) as [|[|]], (j / N) as [|[|]]; cbn [down Nat.eqb negb] in *; lia). destruct X as [X1 X2].
    assert (M : i mod N = j mod N) by (apply (locate_inj l); [apply Nat.mod_upper_bound; lia|apply Nat.mod_upper_bound; lia|]; rewrite (surjective_pairing (locate l (i mod N))), (surjective_pairing (locate l (j mod N))), Ef, X2; reflexivity).
    rewrite (Nat.div_mod i N), (Nat.div_mod j N) by lia. now rewrite X1, M.
  Qed.
  Lemma idx_nodup : NoDup idx.
  Proof. apply (NoDup_nth idx 0). rewrite idx_length. intros i j Hi Hj E. apply sigma_inj; [exact Hi|exact Hj|]. unfold sigma. now rewrite E. Qed.
  Lemma idx_perm : Permutation idx (seq 0 (2 * N)).
  Proof.
    apply NoDup_Permutation_bis; [exact idx_nodup|rewrite seq_length, idx_length; lia|]. intros v Hv. apply (In_nth _ _ 0) in Hv as (i & Hi & <-). rewrite idx_length in Hi. apply in_seq. pose proof (proj1 (sigma_is i Hi)). lia.
  Qed.
  Lemma ix_inv i : i < 2 * N -> nth (nth i idx 0) (soc_ix l) 0 = i.
  Proof.
    intros Hi. pose proof (proj1 (sigma_is i Hi)) as Hv. pose proof (argsort_nth idx (2 * N) (nth i idx 0) idx_perm Hv) as E. fold (soc_ix l) in E. set (j := nth (nth i idx 0) (soc_ix l) 0) in *.
    assert (Lj : j < length idx) by (apply nth_error_Some; rewrite E; discriminate). apply (proj1 (NoDup_nth idx 0) idx_nodup); [exact Lj|rewrite idx_length; exact Hi|]. now apply nth_error_nth.
  Qed.
  Lemma flat_sigma i : i < 2 * N -> flat_orb l2 (sigma i) = nth i idx 0.
  Proof.
    intros Hi. pose proof (proj1 (sigma_is i Hi)) as Hv. unfold flat_orb, sigma. destruct (locate_spec l2 (nth i idx 0)) as (_ & _ & E); [rewrite sum_double; exact Hv|]. symmetry. exact E.
  Qed.
  Lemma flat_ix i : i < 2 * N -> nth (flat_orb l2 (sigma i)) (soc_ix l) 0 = i.
  Proof. intros Hi. rewrite flat_sigma by exact Hi. now apply ix_inv. Qed.
End Index.
Lemma nodup_map_in {A B} (g : A -> B) l : (forall x y, In x l -> In y l -> g x = g y -> x = y) -> NoDup l -> NoDup (map g l).
Proof.
  induction l as [|x l IH]; intros HI HN; [constructor|]. inversion HN as [|? ? Hx Hl]; subst. cbn [map]. constructor; [|apply IH; [intros a b Ha Hb; apply HI; right; assumption|exact Hl]]. intros H. apply in_map_iff in H as (y & E & Hy). apply Hx. rewrite (HI x y); [exact Hy|left; reflexivity|right; exact Hy|symmetry; exact E].
Qed.
Lemma sigma_perm nf (n : nat -> nat) : let l := map n (seq 0 nf) in Permutation (map (sigma l) (seq 0 (2 * list_sum l))) (HamSum.orbs nf (fun f => 2 * n f)).
Proof.
  intros l. assert (L : forall f, f < nf -> nth f l 0 = n f) by (intros f Hf; unfold l; rewrite (nth_indep _ 0 (n 0)) by (rewrite map_length, seq_length; exact Hf); now rewrite map_nth, seq_nth).
  assert (Ll : length l = nf) by (unfold l; now rewrite map_length, seq_length).
  assert (L2 : forall f, nth f (map (Nat.mul 2) l) 0 = 2 * nth f l 0) by (intros f; exact (map_nth (Nat.mul 2) l 0 f)).
  apply NoDup_Permutation.
  - apply nodup_map_in; [|apply seq_NoDup]. intros i j Hi Hj. apply in_seq in Hi, Hj. apply sigma_inj; lia.
  - apply HamOps.orbs_nodup.
  - intros p. rewrite in_orbs, in_map_iff. split.
    + intros (i & <- & Hi). apply in_seq in Hi. destruct (sigma_is l i ltac:(lia)) as (_ & A & B & E). rewrite Ll in A. rewrite E. rewrite L in * by exact A. split; cbn [fst snd]; [exact A|]. destruct (down _); lia.
    + intros [Hf Hx]. destruct p as [f x]. cbn [fst snd] in *. destruct (locate_off (map (Nat.mul 2) l) f x) as [G1 G2]; [rewrite map_length, Ll; exact Hf|rewrite L2, L by exact Hf; exact Hx|]. rewrite sum_double in G1.
      assert (I : In (list_sum (firstn f (map (Nat.mul 2) l)) + x) (spin_shuffle_idx l)) by (apply (Permutation_in _ (Permutation_sym (idx_perm l))), in_seq; lia). apply (In_nth _ _ 0) in I as (i & Hi & Ei). rewrite idx_length in Hi. exists i. split; [unfold sigma; rewrite Ei; exact G2|apply in_seq; lia].
Qed.
