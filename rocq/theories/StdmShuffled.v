(** The arrays of make_stdm12s for any factors spin_shuffle of the rootspaces, as when the attribute is overwritten (stdm.py:1192-1193). *)
From Coq Require Import List NArith ZArith Arith Bool Lia Ring Sorting.Permutation.
From Verif Require Import Base BaseFacts Star AddrModel AddrSpec AddrProofs SCModel SCBlocks FockSpec LprodSpec ExcModel UexcModel PropUexc.
From Verif Require Import StdmModel StdmFacts StdmSum LasFock CrunchModel CrunchSpec CrunchEnd PropCrunch HalfModel HalfFacts HalfDms PropHalf PropStdm ScatterModel ScatterC ScatterFacts ScatterLoop ScatterSupp PropScatter.
Import ListNotations.
Local Open Scope nat_scope.

Section Wire.
  Context {K : star_ring}.
  Variables (sched : nat -> list nat) (nthreads : nat) (P : model_space K) (shuffle : nat -> K).
  Variables (half : K) (big nz : K -> bool) (pyset : list nat -> list nat) (ints : nat -> @fmats K) (ovlp : nat -> nat -> nat -> list (list K)).
  Definition stdm12s_shuffled := do rf <- get_rootaddr_fragaddr (w_lroots P) ;;
    let ud := mask_exc_tables (w_uroot P) true (fun _ => true) (w_tables P) in
    make_stdm12s sched (w_nlas P) nthreads half big pyset (w_lroots P) ovlp shuffle (fragK K (w_nelec_rf P)) (fst rf) (snd rf) (crunch_D (m_norb P) ints (m_ur P) (w_nelec_rf P) nz) (snd ud) (fst ud).
End Wire.
Definition stdm12s_of_ci_shuffled {K : star_ring} (sched : nat -> list nat) (nthreads : nat) (C : ci_set K) (shuffle : nat -> K) (half : K) (small big nz : K -> bool) (pyset : list nat -> list nat) :=
  do l <- tables C small ;; stdm12s_shuffled sched nthreads (space C) shuffle half big nz pyset (fun f => nth f l (mkFmats (fun _ _ _ => None) (fun _ _ _ => None) (fun _ _ _ => None) (fun _ _ => None) (fun _ _ => None) (fun _ _ => None))) (frag_ovlp C).

Section Scale.
  Context {K : star_ring}.
  Add Ring Kr : (sring K).
  Context {X : Type}.
  Variables (big : K -> bool) (tr : X -> X) (pyset : list nat -> list nat) (lroots : list (list nat)) (ovlp : nat -> nat -> nat -> list (list K)).
  Variables (S S' : nat -> K) (frag : nat -> list nat -> K) (D : nat -> list nat -> option nat -> nat * list nat -> nat * list nat -> X -> K) (tabs : list (list erow)).
  Hypothesis Hbig : forall v, big v = false -> v = s0.
  Hypothesis HS : forall r, sconj (S r) = S r.
  Hypothesis HS' : forall r, sconj (S' r) = S' r.
  Notation c r r' := (smul (smul (S r) (S r')) (smul (S' r) (S' r'))).
  Lemma element_scale lbl row e e' x : smul (S' (e_bra row)) (S' (e_bra row)) = s1 -> smul (S' (e_ket row)) (S' (e_ket row)) = s1 ->
    element big pyset lroots ovlp S frag D lbl row e e' x = smul (c (e_bra row) (e_ket row)) (element big pyset lroots ovlp S' frag D lbl row e e' x).
  Proof.
    intros H1 H2. unfold element. set (w := weight _ _ _ S _ _ _ _ _ _). set (w' := weight _ _ _ S' _ _ _ _ _ _).
    assert (Z : forall v, (if big v then v else s0) = v) by (intros v; destruct (big v) eqn:B; [reflexivity|symmetry; now apply Hbig]). rewrite !Z.
    assert (E : w = smul (c (e_bra row) (e_ket row)) w').
    { unfold w, w', weight. set (b := S' (e_bra row)) in *. set (k := S' (e_ket row)) in *. set (u := S (e_bra row)). set (v := S (e_ket row)).
      match goal with |- smul (smul (smul (smul u v) ?p) ?q) ?t = _ => transitivity (smul (smul (smul b b) (smul k k)) (smul (smul (smul (smul u v) p) q) t)); [rewrite H1, H2; ring|ring] end. }
    rewrite E. ring.
  Qed.
  Lemma c_real r r' : sconj (c r r') = c r r'.
  Proof. rewrite !sconj_mul, !HS, !HS'. reflexivity. Qed.
  Lemma reference_scale r e r' e' x : smul (S' r) (S' r) = s1 -> smul (S' r') (S' r') = s1 ->
    reference big tr pyset lroots ovlp S frag D tabs r e r' e' x = smul (c r r') (reference big tr pyset lroots ovlp S' frag D tabs r e r' e' x).
  Proof.
    intros H1 H2. unfold reference. rewrite bsum_mul_l. apply bsum_ext. intros lt _. rewrite bsum_mul_l. apply bsum_ext. intros row _.
    destruct (Nat.eqb_spec (e_bra row) r) as [Eb|Nb], (Nat.eqb_spec (e_ket row) r') as [Ek|Nk]; cbn [andb];
      [rewrite element_scale by congruence; now rewrite Eb, Ek| | |];
      (destruct (Nat.eqb_spec (e_bra row) r') as [Eb'|Nb'], (Nat.eqb_spec (e_ket row) r) as [Ek'|Nk']; cbn [andb]; try ring;
       rewrite element_scale by congruence; rewrite sconj_mul, c_real, Eb', Ek'; ring).
  Qed.
End Scale.

Section Gen.
Variables (K : star_ring) (P : model_space K) (S : nat -> K) (half : K) (big nz : K -> bool) (pyset : list nat -> list nat) (ints : nat -> @fmats K) (ovlp : nat -> nat -> nat -> list (list K)).
Hypothesis HS : forall r, sconj (S r) = S r.
Add Ring Kr' : (sring K).
Definition factor (r r' : nat) : K := smul (smul (S r) (S r')) (smul (spinK K (w_nelec P) r) (spinK K (w_nelec P) r')).
Lemma spin_sq r : r < m_nroots P -> smul (spinK K (w_nelec P) r) (spinK K (w_nelec P) r) = s1.
Proof.
  intros Hr. rewrite (spinK_is K (m_nf P) (m_ne P) (m_ur P) (m_nroots P) (w_nelec P) (fun r _ => eq_refl) r Hr). destruct (spar _ _); cbn [sg]; unfold sg; ring.
Qed.
Lemma shuffled_densities :
  proper P -> (forall f, f < m_nf P -> exact K (m_norb P) (m_vec P) (m_ne P) (m_nl P) f (ints f)) -> gram P ovlp -> set_like pyset ->
  sadd half half = s1 -> nz s0 = false -> (forall v, big v = false -> v = s0) -> (forall v, big (sconj v) = big v) ->
  (forall t, In t (w_tables P) -> collision_free (w_uroot P) t) ->
  exists T, (do rf <- get_rootaddr_fragaddr (w_lroots P) ;; let ud := mask_exc_tables (w_uroot P) true (fun _ => true) (w_tables P) in
      crunch_all half big tix_tr pyset (w_lroots P) ovlp S (fragK K (w_nelec_rf P)) (fst rf) (snd rf) (crunch_D (m_norb P) ints (m_ur P) (w_nelec_rf P) nz) (snd ud) (fst ud)) = Ok T /\
    forall r e r' e' x, r < m_nroots P -> r' < m_nroots P -> in_range (dims_of (w_lroots P) r) e -> in_range (dims_of (w_lroots P) r') e' -> tix_in (m_nf P) (m_norb P) x ->
      T (states_before (w_lroots P) r + colmajor (dims_of (w_lroots P) r) e) (states_before (w_lroots P) r' + colmajor (dims_of (w_lroots P) r') e') x =
      smul (factor r r') (inner K (2 * norb (m_nf P) (m_norb P)) (product P r e) (gops K (m_nf P) (m_norb P) (xops x) (product P r' e'))).
Proof.
  intros Pp Hex Hg Hset Hhalf Hnz Hbig Hbc Hcf. pose proof Pp as ((Hn0 & H8) & Hr0 & Hpos & Hfit & Hne).
  assert (Hl : w_lroots P <> []) by (intros E; pose proof (w_len P) as L; rewrite E in L; cbn in L; lia).
  assert (Hrect : Forall (fun row => length row = length (hd [] (w_lroots P))) (w_lroots P)) by (rewrite (w_hd P Pp); apply Forall_forall; intros row I; unfold w_lroots in I; apply in_map_iff in I as (f & <- & _); now rewrite map_length, seq_length).
  assert (Hp : Forall (Forall (fun d => 0 < d)) (w_lroots P)) by (apply Forall_forall; intros row I; unfold w_lroots in I; apply in_map_iff in I as (f & <- & If); apply in_seq in If; apply Forall_forall; intros d Id; apply in_map_iff in Id as (r & <- & Ir); apply in_seq in Ir; apply Hpos; lia).
  destruct (rootaddr_fragaddr_spec (w_lroots P) (length (hd [] (w_lroots P))) Hl Hrect) as (ra & fa & Eg & _). rewrite Eg. cbn [bind fst snd].
  assert (Ek : forall t : list erow, filter (fun _ => true) t = t) by (induction t as [|a t IH]; [reflexivity|]; cbn; now rewrite IH).
  destruct (C56_assembled K tix half big tix_tr pyset (w_lroots P) ovlp S (fragK K (w_nelec_rf P)) (crunch_D (m_norb P) ints (m_ur P) (w_nelec_rf P) nz) ra fa (w_uroot P) (w_nelec P) (w_scai P) (fun _ => true)) as (T & ET & VT); try assumption.
  - apply Hset.
  - intros fr. rewrite w_len. apply (set_sorted P Pp pyset fr Hset).
  - intros f b k Hf Hb Hk. rewrite w_len in Hf. rewrite (w_hd P Pp) in Hb, Hk. rewrite !w_at by assumption. split; [now apply Hg|]. intros i j Hi Hj. rewrite (proj2 (Hg f b k Hf Hb Hk) i j Hi Hj), (proj2 (Hg f k b Hf Hk Hb) j i Hj Hi). symmetry. apply FockOps.inner_swap.
  - intros r l. apply sign_real.
  - intros r l l' Hll Pm. rewrite w_len in Hll. f_equal. apply (set_perm P Pp pyset l l' Hset Hll). intros f. split; apply Permutation_in; [exact Pm|now symmetry].
  - intros r r' f Hr Hr' Hf E. rewrite (w_hd P Pp) in Hr, Hr'. rewrite w_len in Hf. rewrite !w_at by assumption. unfold w_uroot in E. rewrite !Nat2Z.id in E. apply Nat2Z.inj in E. now rewrite E.
  - rewrite w_len. exact (crunch_hermitian K (m_nf P) (m_norb P) (m_vec P) (m_ne P) (m_nl P) ints (m_ur P) (w_nelec_rf P) nz H8 Hne Hex Hfit Hnz (m_nroots P) (w_nelec P) (w_lroots P) (fun r _ => eq_refl) (fun r _ => w_rf P r) (w_len P) (fun f r Hf Hr => w_at P f r Hf Hr)
      (w_scai P) (w_admissible P) (w_nodup P) (w_in P) (w_uroot P) ltac:(intros r f _ _; unfold w_uroot; now rewrite !Nat2Z.id)).
  - rewrite w_len. apply w_admissible.
  - apply w_nodup.
  - rewrite (w_hd P Pp). apply w_in.
  - intros t It. rewrite Ek. rewrite w_len in It. now apply Hcf.
  - rewrite w_len in ET. exists T. split; [exact ET|]. intros r e r' e' x Hr Hr' R R' Tx. rewrite (w_hd P Pp) in VT. rewrite VT by assumption.
    rewrite (map_ext _ (fun t => t) Ek), map_id, w_len.
    rewrite (reference_scale big tix_tr pyset (w_lroots P) ovlp S (spinK K (w_nelec P))) by (first [assumption|intros; apply sign_real|now apply spin_sq]). unfold factor. apply f_equal.
    exact (reference_is K (m_nf P) (m_norb P) (m_vec P) (m_ne P) (m_nl P) ints (m_ur P) (w_nelec_rf P) nz H8 Hne Hex Hfit Hnz (m_nroots P) (w_nelec P) (w_lroots P) (fun r _ => eq_refl) (fun r _ => w_rf P r) (w_len P) (fun f r Hf Hr => w_at P f r Hf Hr)
      (w_scai P) (w_admissible P) (w_nodup P) (w_in P) big pyset ovlp Hbig (proj1 Hset) (fun f b k i j Hf Hb Hk Hi Hj => proj2 (Hg f b k Hf Hb Hk) i j Hi Hj) ltac:(intros [b k] I; apply w_pairs in I as [I _]; cbn; lia) ltac:(intros b k I C; now apply w_pairs)
      r e r' e' x (tix_b P x Tx) Hr Hr' (in_state P r e Hr R) (in_state P r' e' Hr' R')).
Qed.
Lemma shuffled_arrays (sched : nat -> list nat) (nthreads : nat) :
  proper P -> (forall f, f < m_nf P -> exact K (m_norb P) (m_vec P) (m_ne P) (m_nl P) f (ints f)) -> gram P ovlp -> set_like pyset ->
  sadd half half = s1 -> nz s0 = false -> (forall v, big v = false -> v = s0) -> (forall v, big (sconj v) = big v) ->
  (forall t, In t (w_tables P) -> collision_free (w_uroot P) t) ->
  0 < nthreads -> (forall n, Permutation (sched n) (seq 0 n)) -> let N := norb (m_nf P) (m_norb P) in 0 < N -> (4 * Z.of_nat N ^ 4 < 2 ^ 31)%Z ->
  exists o1 o2, stdm12s_shuffled sched nthreads P S half big nz pyset ints ovlp = Ok (o1, o2) /\
    forall r e r' e', r < m_nroots P -> r' < m_nroots P -> in_range (dims_of (w_lroots P) r) e -> in_range (dims_of (w_lroots P) r') e' ->
      let E x := smul (factor r r') (inner K (2 * N) (product P r e) (gops K (m_nf P) (m_norb P) (xops x) (product P r' e'))) in let loc := locate (w_nlas P) in
      (forall s p q, s < 2 -> p < N -> q < N -> o1 (number P r e) s p q (number P r' e') = E (X1 s (loc q) (loc p))) /\
      (forall s p q t v u, s < 2 -> t < 2 -> p < N -> q < N -> v < N -> u < N -> o2 (number P r e) s p q t v u (number P r' e') = E (X2 (2 * s + t) (loc p) (loc q) (loc v) (loc u))).
Proof.
  intros Pp Hex Hg Hset Hh Hnz Hb Hbc Hcf Hth Hsch N HN Hint.
  destruct (shuffled_densities Pp Hex Hg Hset Hh Hnz Hb Hbc Hcf) as (T & ET & VT).
  unfold stdm12s_shuffled. destruct (get_rootaddr_fragaddr (w_lroots P)) as [rf|]; [|discriminate]. cbn [bind] in *. cbv zeta in ET.
  destruct (make_stdm12s_ok sched (w_nlas P) nthreads Hsch HN Hth Hint half big pyset (w_lroots P) ovlp S (fragK K (w_nelec_rf P)) (fst rf) (snd rf)
    (crunch_D (m_norb P) ints (m_ur P) (w_nelec_rf P) nz) (snd (mask_exc_tables (w_uroot P) true (fun _ => true) (w_tables P))) (fst (mask_exc_tables (w_uroot P) true (fun _ => true) (w_tables P))) T) as (o1 & o2 & E & V1 & V2).
  - intros k l row El Il. split; [|intros bra ket; apply crunch_D_supported].
    unfold mask_exc_tables in El. cbn [fst] in El. rewrite map_map in El. rewrite nth_error_map in El. destruct (nth_error (w_tables P) k) as [t|] eqn:Et; [|discriminate]. cbn [option_map] in El.
    assert (El' : l = fst (find_unique_exc (w_uroot P) true (filter (fun _ => true) t))) by congruence. rewrite El' in Il. apply uexc_incl in Il. apply filter_In in Il as [Il _].
    destruct (row_pair (m_nf P) (m_nroots P) (w_nelec P) (w_lroots P) (w_len P) (w_scai P) (w_admissible P) (w_nodup P) (w_in P) k t row Et Il) as (_ & Hf & Hbr & Hk).
    destruct (C65_no_exception K P nz ints Pp Hex Hnz k t row [] [] Et Il) as (d & Ed); [|exact (crunch_length _ _ _ _ _ _ _ _ _ _ d Ed)].
    destruct Pp as (_ & _ & Hpos & _). intros f If. specialize (Hf f If). replace (nth f [] 0) with 0 by (now destruct f). split; now apply Hpos.
  - exact ET.
  - exists o1, o2. split; [exact E|]. intros r e r' e' Hr Hr' R R'. split.
    + intros s p q Hs Hp Hq. rewrite V1 by assumption. destruct (w_loc P p Hp) as [Ip Gp]. destruct (w_loc P q Hq) as [Iq Gq]. unfold number. rewrite VT by (first [assumption|split; [exact Hs|now split]]). reflexivity.
    + intros s p q t v u Hs Ht Hp Hq Hv Hu. rewrite V2 by assumption. destruct (w_loc P p Hp) as [Ip Gp]. destruct (w_loc P q Hq) as [Iq Gq]. destruct (w_loc P v Hv) as [Iv Gv]. destruct (w_loc P u Hu) as [Iu Gu].
      unfold number. rewrite VT by (first [assumption|split; [lia|auto]]). reflexivity.
Qed.
End Gen.

Lemma shuffled_of_ci (K : star_ring) (C : ci_set K) (S : nat -> K) (half : K) (small big nz : K -> bool) (pyset : list nat -> list nat) (sched : nat -> list nat) (nthreads : nat) :
  (forall x : K, sconj x = x) -> ci_ok C -> small s0 = true -> set_like pyset ->
  sadd half half = s1 -> nz s0 = false -> (forall v, big v = false -> v = s0) ->
  (forall t, In t (w_tables (space C)) -> collision_free (w_uroot (space C)) t) ->
  0 < nthreads -> (forall n, Permutation (sched n) (seq 0 n)) -> let N := norb (c_nf C) (c_norb C) in 0 < N -> (4 * Z.of_nat N ^ 4 < 2 ^ 31)%Z ->
  exists o1 o2, stdm12s_of_ci_shuffled sched nthreads C S half small big nz pyset = Ok (o1, o2) /\
    forall r e r' e', r < c_nroots C -> r' < c_nroots C -> in_range (dims_of (w_lroots (space C)) r) e -> in_range (dims_of (w_lroots (space C)) r') e' ->
      let E x := smul (factor K (space C) S r r') (inner K (2 * N) (product (space C) r e) (gops K (c_nf C) (c_norb C) (xops x) (product (space C) r' e'))) in let loc := locate (w_nlas (space C)) in
      (forall s p q, s < 2 -> p < N -> q < N -> o1 (number (space C) r e) s p q (number (space C) r' e') = E (X1 s (loc q) (loc p))) /\
      (forall s p q t v u, s < 2 -> t < 2 -> p < N -> q < N -> v < N -> u < N -> o2 (number (space C) r e) s p q t v u (number (space C) r' e') = E (X2 (2 * s + t) (loc p) (loc q) (loc v) (loc u))).
Proof.
  intros Hr (H8 & Hn & Hok & Hur) Hs Hset Hh Hnz Hb Hcf Hth Hsch N HN Hint. unfold stdm12s_of_ci_shuffled, tables.
  destruct (mapM_all (frag_tables C small) (fun f M => exact K (c_norb C) (m_vec (space C)) (c_ne C) (c_nl C) f M) (seq 0 (c_nf C))) as (l & E & L & I).
  { intros f Hf. apply in_seq in Hf. apply C64_tables; auto. apply Hok. lia. }
  rewrite E. cbn [bind]. apply (shuffled_arrays K (space C) S); auto.
  - split; [exact H8|]. split; [exact Hn|]. cbn [space m_nf m_nl m_ne m_norb m_vec m_ur m_nroots]. split; [|split].
    + intros f r Hf Hr'. apply (Hok f Hf). now apply Hur.
    + intros f a Hf Ha. apply (Hok f Hf). now apply (Hok f Hf).
    + intros f a i Hf Hi. apply civec_nelec.
  - intros f Hf. cbn [space m_nf m_norb m_ne m_nl] in *. rewrite seq_length in I. specialize (I f 0 (mkFmats (fun _ _ _ => None) (fun _ _ _ => None) (fun _ _ _ => None) (fun _ _ => None) (fun _ _ => None) (fun _ _ => None)) Hf). rewrite seq_nth in I by exact Hf. exact I.
  - apply C64_overlap.
  - intros v. now rewrite Hr.
Qed.
