(** Further theorems about density matrices with spin-orbit coupling (property C79): electrons counted, hermitian matrices. *)
From Coq Require Import List NArith ZArith Arith Bool Lia Ring Sorting.Permutation QArith Qcanon.
From Verif Require Import Base BaseFacts Star AddrModel AddrSpec AddrProofs SCModel FockSpec FockFacts FockOps LprodSpec SignsModel SignsFacts LasSigns LasFock ExcModel UexcModel PropUexc StdmModel StdmFacts PropStdm PropSC.
From Verif Require Import CrunchModel CrunchSpec CrunchAll CrunchEnd PropCrunch HamModel HamSum HamVals HamLoop HamSpec HamEnd HamOps OvlpFacts PropHam RdmModel RdmFdm RdmEnd PropRdm StdmShuffled ScatterModel ScatterFacts PropScatter HalfSpec HalfModel HalfFacts HalfDms PropHalf.
From Verif Require Import TransModel TransProofs SpinlessModel SpinlessProd PropSpinless SocModel SocFacts PropSoc SocRdmModel PropSocRdm.
Import ListNotations.
Close Scope Qc_scope. Close Scope Q_scope.
Local Open Scope nat_scope.

Section Count.
  Variables (nf : nat) (n : nat -> nat).
  Lemma count_app g l l' : LprodSpec.count g (l ++ l') = LprodSpec.count g l + LprodSpec.count g l'.
  Proof. unfold LprodSpec.count. now rewrite filter_app, app_length. Qed.
  Lemma count_shift (g h : nat -> bool) a b k : (forall i, i < k -> g (a + i) = h (b + i)) -> LprodSpec.count g (seq a k) = LprodSpec.count h (seq b k).
  Proof.
    revert a b. induction k as [|k IH]; intros a b H; [reflexivity|]. unfold LprodSpec.count in *. cbn [seq filter]. pose proof (H 0 (Nat.lt_0_succ k)) as H0. rewrite !Nat.add_0_r in H0. rewrite H0.
    assert (E : length (filter g (seq (S a) k)) = length (filter h (seq (S b) k))) by (apply IH; intros i Hi; rewrite !Nat.add_succ_comm; apply H; lia). destruct (h b); cbn [length]; now rewrite E.
  Qed.
  Lemma count_blocks g base k : LprodSpec.count g (seq base (offn n k)) = list_sum (map (fun f => LprodSpec.count g (seq (base + offn n f) (n f))) (seq 0 k)).
  Proof.
    induction k as [|k IH]; [reflexivity|]. rewrite offn_S, seq_app, count_app, IH, seq_S, map_app, list_sum_app. cbn [map list_sum fold_right Nat.add]. now rewrite Nat.add_0_r.
  Qed.
  Lemma sum_ext_lt (g h : nat -> nat) k : (forall f, f < k -> g f = h f) -> list_sum (map g (seq 0 k)) = list_sum (map h (seq 0 k)).
  Proof. intros H. f_equal. apply map_ext_in. intros f If. apply in_seq in If. apply H. lia. Qed.
  Lemma sum_plus (g h : nat -> nat) l : list_sum (map g l) + list_sum (map h l) = list_sum (map (fun f => g f + h f) l).
  Proof. induction l as [|x l IH]; [reflexivity|]. change (g x + list_sum (map g l) + (h x + list_sum (map h l)) = g x + h x + list_sum (map (fun f => g f + h f) l)). lia. Qed.
  Lemma las_total (K : star_ring) (v : nat -> vec K) (ne : nat -> nat * nat) d : (forall f, f < nf -> has_nelec K (n f) (ne f) (v f)) ->
    las_state K nf n v d = s0 \/ LprodSpec.count (bt d) (seq 0 (2 * norb nf n)) = list_sum (map (fun f => fst (ne f)) (seq 0 nf)) + list_sum (map (fun f => snd (ne f)) (seq 0 nf)).
  Proof.
    intros H. destruct (all_or nf (fun f Hf => H f Hf _ (frag_det_lt nf n f d))) as [(f & Hf & Z)|A].
    - left. apply (bprod_zero K _ _ f); [apply in_seq; lia|exact Z].
    - right. replace (2 * norb nf n) with (norb nf n + norb nf n) by lia. rewrite seq_app, count_app, Nat.add_comm. unfold norb at 2 3. rewrite !count_blocks. f_equal; apply sum_ext_lt; intros f Hf; destruct (A f Hf) as [A1 A2].
      + rewrite <- A1. apply count_shift. intros i Hi. symmetry. exact (bt_frag_det nf n f d false i Hf Hi).
      + rewrite <- A2. apply count_shift. intros i Hi. symmetry. exact (bt_frag_det nf n f d true i Hf Hi).
  Qed.
End Count.

(** k times x *)
Definition times {K : star_ring} (k : nat) (x : K) : K := bsum (seq 0 k) (fun _ => x).
Section Num.
  Variable K : star_ring.
  Add Ring Kr : (sring K).
  Lemma num_op m p (v : vec K) d : p < m -> cre K m p (ann K m p v) d = if bt d p then v d else s0.
  Proof.
    intros Hp. destruct (bt d p) eqn:E; [|unfold cre; now rewrite E].
    pose proof (ann_cre K m p p v d Hp Hp) as A. rewrite Nat.eqb_refl in A. unfold ann in A at 1. rewrite E in A. rewrite <- A. ring.
  Qed.
  Lemma mul_s0 (x : K) : smul x s0 = s0.
  Proof. ring. Qed.
  Lemma times_S k (x : K) : times (S k) x = sadd x (times k x).
  Proof. unfold times. cbn [seq bsum]. f_equal. rewrite <- seq_shift. apply bsum_map. Qed.
  Lemma count_times g l (x : K) : bsum l (fun p => if g p : bool then x else s0) = times (LprodSpec.count g l) x.
  Proof.
    induction l as [|p l IH]; [reflexivity|]. cbn [bsum]. rewrite IH. unfold LprodSpec.count. cbn [filter]. destruct (g p); [cbn [length]; now rewrite times_S|ring].
  Qed.
  Lemma sum_major N (F : nat -> K) : bsum (seq 0 (2 * N)) (fun p => F (spin_major N p)) = bsum (seq 0 (2 * N)) F.
  Proof.
    rewrite sum_spins. rewrite (sum_spins K N F). cbn [seq bsum].
    assert (E : forall s, s < 2 -> bsum (seq 0 N) (fun p => F (spin_major N (s * N + p))) = bsum (seq 0 N) (fun p => F (spo N s p))).
    { intros s Hs. apply bsum_ext. intros p Hp. apply in_seq in Hp. unfold spin_major. rewrite Nat.add_comm, Nat.div_add, Nat.mod_add, Nat.div_small, Nat.mod_small by lia. reflexivity. }
    rewrite (E 0), (E 1) by lia. unfold spo. cbn [Nat.eqb]. rewrite (bsum_ext K (seq 0 N) (fun p => F (1 * N + p)) (fun p => F (N + p))) by (intros; f_equal; lia). change (fun p => F (0 * N + p)) with (fun p => F p). ring.
  Qed.
  Lemma trace_is N (u v : vec K) Ne : (forall d, v d = s0 \/ LprodSpec.count (bt d) (seq 0 (2 * N)) = Ne) -> bsum (seq 0 (2 * N)) (fun p => dens1_any N u v p p) = times Ne (inner K (2 * N) u v).
  Proof.
    intros H. unfold dens1_any. rewrite (sum_major N (fun k => inner K (2 * N) u (cre K (2 * N) k (ann K (2 * N) k v)))). unfold inner.
    transitivity (bsum (dets (2 * N)) (fun d => times Ne (smul (sconj (u d)) (v d)))); [|unfold times; apply bsum_swap]. rewrite bsum_swap. apply bsum_ext. intros d _.
    transitivity (bsum (seq 0 (2 * N)) (fun k => if bt d k then smul (sconj (u d)) (v d) else s0)).
    - apply bsum_ext. intros k Hk. apply in_seq in Hk. rewrite num_op by lia. destruct (bt d k); ring.
    - rewrite count_times. destruct (H d) as [Z|E]; [|now rewrite E]. rewrite Z. unfold times. rewrite !bsum_0 by (intros; ring). reflexivity.
  Qed.
  Lemma herm_is N (v : vec K) p q : p < 2 * N -> q < 2 * N -> dens1_any N v v q p = sconj (dens1_any N v v p q).
  Proof.
    intros Hp Hq. assert (L : forall i, i < 2 * N -> spin_major N i < 2 * N) by (intros i Hi; unfold spin_major, spo; assert (i mod N < N) by (apply Nat.mod_upper_bound; lia); destruct (_ =? _); lia).
    unfold dens1_any. rewrite (inner_swap K _ (cre K (2 * N) (spin_major N p) (ann K (2 * N) (spin_major N q) v)) v), (cre_adj K _ _ _ _ (L p Hp)). f_equal.
    rewrite (inner_swap K _ (cre K (2 * N) (spin_major N q) (ann K (2 * N) (spin_major N p) v)) v), (cre_adj K _ _ _ _ (L q Hq)). apply inner_swap.
  Qed.
End Num.

(** When all rootspaces have the same number of electrons the trace of rdm1s is that number times <bra|ket>; of one SI vector with itself,
    rdm1s is hermitian. *)
Theorem C79_trace : forall (K : star_ring) (C : ci_set K) (ptr : nat -> nat -> nat) (half : K) (big : K -> bool) (pyset : list nat -> list nat) (ints : nat -> @fmats K) (ovlp : nat -> nat -> nat -> list (list K))
    (si_bra si_ket : list (list K)) (hermi : bool) (l : list (nat * list nat)) (Ne : nat), let P := space (spinless_ci C ptr) in
  well_shared C ptr -> first_roots C -> (forall f r, f < c_nf C -> r < c_nroots C -> c_ur C f r < c_nu C f) ->
  proper P -> (forall f, f < m_nf P -> exact K (m_norb P) (m_vec P) (m_ne P) (m_nl P) f (ints f)) -> gram P ovlp -> set_like pyset ->
  sadd half half = s1 -> (forall v, big v = false -> v = s0) -> (forall v, big (sconj v) = big v) ->
  (forall t, In t (w_tables P) -> collision_free (w_uroot P) t) ->
  columns (space C) si_bra -> columns (space C) si_ket -> length si_ket = length si_bra -> si_bra <> [] -> (hermi = true -> si_bra = si_ket) -> all_states (space C) l ->
  is_spin_pure (c_nf C) (c_nroots C) (nelec_frs C) = false ->
  (forall r, r < c_nroots C -> fst (total_nelec (c_nf C) (nelec_frs C) r) + snd (total_nelec (c_nf C) (nelec_frs C) r) = Ne) ->
  exists d1 d2 ne, trans_rdm12s C ptr half big pyset ints ovlp si_bra si_ket hermi = Ok (BySpinOrbital d1 d2, ne) /\
    forall root, root < length si_bra ->
      let N := norb (c_nf C) (c_norb C) in
      let bra := combine_states (space C) l (nth root si_bra []) in
      let ket := combine_states (space C) l (nth root si_ket []) in
      bsum (seq 0 (2 * N)) (fun p => d1 root p p) = times Ne (inner K (2 * N) bra ket) /\
      (si_bra = si_ket -> forall p q, p < 2 * N -> q < 2 * N -> d1 root q p = sconj (d1 root p q)).
Proof.
  intros K C ptr half big pyset ints ovlp sb sk hermi l Ne P Hsh Hfr Hur Pp Hex Hg Hset Hhalf Hbig Hbc Hcf Cb Ck Hl Hn Hh Al Hpure HNe.
  destruct (C79_spin_orbitals K C ptr half big pyset ints ovlp sb sk hermi l) as (d1 & d2 & ne & E & V); try assumption. exists d1, d2, ne. split; [exact E|]. intros root Hr. destruct (V root Hr) as [V1 _]. cbv zeta in *. split.
  - transitivity (bsum (seq 0 (2 * norb (c_nf C) (c_norb C))) (fun p => dens1_any (norb (c_nf C) (c_norb C)) (combine_states (space C) l (nth root sb [])) (combine_states (space C) l (nth root sk [])) p p)); [apply bsum_ext; intros p Hp; apply in_seq in Hp; apply V1; lia|].
    apply trace_is. intros d. destruct (Nat.eq_dec (LprodSpec.count (bt d) (seq 0 (2 * norb (c_nf C) (c_norb C)))) Ne) as [|X]; [now right|left]. unfold combine_states. apply bsum_0. intros [r e] Ia. cbn [fst snd]. apply (proj2 Al) in Ia as [Lr _].
    assert (Z : product (space C) r e d = s0); [|rewrite Z; apply mul_s0].
    destruct (las_total (c_nf C) (c_norb C) K (fun f => m_vec (space C) f (c_ur C f r) (nth f e 0)) (fun f => c_ne C f (c_ur C f r)) d) as [Z|Z]; [intros f Hf; apply civec_nelec|exact Z|].
    exfalso. apply X. rewrite Z. exact (HNe r Lr).
  - intros -> p q Hp Hq. rewrite !V1 by assumption. now apply herm_is.
Qed.
Print Assumptions C79_trace.
(** The state of C79_example: two electrons, 74 + 49 + 409 + 416 is twice its norm. *)
Example C79_trace_example : forallb (fun r => fst (total_nelec 2 (nelec_frs sp_C) r) + snd (total_nelec 2 (nelec_frs sp_C) r) =? 2) (seq 0 4) = true /\
  this (inner Qs 4 (sr_state 0 sr_ket) (sr_state 0 sr_ket)) = 474%Q /\ this (bsum (seq 0 4) (fun p => dens1_any 2 (sr_state 0 sr_ket) (sr_state 0 sr_ket) p p)) = 948%Q.
Proof. vm_compute. repeat split; reflexivity. Qed.
