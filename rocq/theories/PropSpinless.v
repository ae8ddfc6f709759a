(** Property C67: density matrices between rootspaces with different numbers of electrons of each spin. *)
From Coq Require Import List NArith ZArith Arith Bool Lia Ring Sorting.Permutation QArith Qcanon.
From Verif Require Import Base Star AddrModel AddrSpec SCModel FockSpec LprodSpec LasFock LasElem ExcModel UexcModel PropUexc StdmModel.
From Verif Require Import CrunchModel CrunchSpec CrunchEnd PropCrunch DetModel HalfSpec HalfModel PropHalf PropStdm ScatterModel ScatterFacts PropScatter StdmShuffled SpinlessModel SpinlessFock SpinlessProd.
Import ListNotations.
Close Scope Qc_scope. Close Scope Q_scope.
Local Open Scope nat_scope.

Section Wire.
  Context {K : star_ring}.
  Variables (C : ci_set K) (ptr : nat -> nat -> nat).
  Definition nelec_frs (f r : nat) : nat * nat := c_ne C f (c_ur C f r).
  Definition ci_fr (f r : nat) : nat -> mat K := c_ci C f (c_ur C f r).
  (** what frag.make_ints is given: lines 1168-1173; every unique root has the array of its first rootspace *)
  Definition spinless_ci : ci_set K :=
    mkCI (c_nf C) (fun f => 2 * c_norb C f) (c_nu C) (c_uaddr C)
      (fun f u => ci_map2spinless ci_fr ptr (c_norb C) nelec_frs (c_nf C) (c_nroots C) f (c_uaddr C f u)) (fun f u => spinless_ne (c_ne C f u)) (c_nl C) (c_ur C) (c_nroots C).
  (** tdm1s and tdm2s, and the caller's array nelec_frs afterwards: make_stdm12s, stdm.py:1136-1229, without smult_fr and umat_root *)
  Inductive returned := Pure (tdm1s : nat -> nat -> nat -> nat -> nat -> K) (tdm2s : nat -> nat -> nat -> nat -> nat -> nat -> nat -> nat -> K)
    | Mixed (tdm1 : nat -> nat -> nat -> nat -> K) (tdm2s : nat -> nat -> nat -> nat -> nat -> nat -> nat -> nat -> K).
  Definition make_stdm12s_of_ci (sched : nat -> list nat) (nthreads : nat) (half : K) (small big nz : K -> bool) (pyset : list nat -> list nat) : res (returned * (nat -> nat -> nat * nat)) :=
    if is_spin_pure (c_nf C) (c_nroots C) nelec_frs
    then do t <- stdm12s_of_ci sched nthreads C half small big nz pyset ;; Ok (Pure (fst t) (snd t), nelec_frs)
    else do t <- stdm12s_of_ci_shuffled sched nthreads spinless_ci (spinK K (w_nelec (space C))) half small big nz pyset ;;
      let o := clean_up (spin_shuffle_idx (w_nlas (space C))) (norb_tot (w_nlas (space C))) t in Ok (Mixed (fst o) (snd o), fun f r => spinless_ne (nelec_frs f r)).
  (** arrays at the same address are the same array, of fragments and electrons alike; every unique root is that of its first rootspace *)
  Definition well_shared : Prop := forall f r f' r', f < c_nf C -> r < c_nroots C -> f' < c_nf C -> r' < c_nroots C -> ptr f r = ptr f' r' ->
    ci_fr f r = ci_fr f' r' /\ c_norb C f = c_norb C f' /\ nelec_frs f r = nelec_frs f' r'.
  Definition first_roots : Prop := forall f u, f < c_nf C -> u < c_nu C f -> c_uaddr C f u < c_nroots C /\ c_ur C f (c_uaddr C f u) = u.
End Wire.

(** ** What is expected *)
(** Spin orbital with number i in the returned array: the N orbitals with spin up, then the N with spin down *)
Definition spin_major (N i : nat) : nat := spo N (i / N) (i mod N).
(** <bra| q' p |ket> for spin orbitals p and q, of whichever spins *)
Definition dens1_any {K : star_ring} (N : nat) (bra ket : vec K) (p q : nat) : K := inner K (2 * N) bra (cre K (2 * N) (spin_major N q) (ann K (2 * N) (spin_major N p) ket)).

(** ** Indices *)
Fixpoint blocks (add : nat -> nat) (acc : nat) (l : list nat) : list nat := match l with [] => [] | x :: r => seq (2 * acc + add x) x ++ blocks add (acc + x) r end.
Lemma fold_blocks l : forall acc a b,
  fold_left (fun ab ij => let '(i, j) := ij in (fst ab ++ range (2 * (i - j)) (2 * i - j), snd ab ++ range (2 * i - j) (2 * i))) (combine (cumsum_from acc l) l) (a, b) =
  (a ++ blocks (fun _ => 0) acc l, b ++ blocks (fun x => x) acc l).
Proof.
  induction l as [|x r IH]; intros acc a b; cbn [cumsum_from combine fold_left blocks]; [now rewrite !app_nil_r|]. rewrite IH. cbn [fst snd]. rewrite <- !app_assoc. unfold range.
  replace (2 * (acc + x) - x - 2 * (acc + x - x)) with x by lia. replace (2 * (acc + x) - (2 * (acc + x) - x)) with x by lia. replace (2 * (acc + x - x)) with (2 * acc + 0) by lia. replace (2 * (acc + x) - x) with (2 * acc + x) by lia. reflexivity.
Qed.
Lemma idx_blocks l : spin_shuffle_idx l = blocks (fun _ => 0) 0 l ++ blocks (fun x => x) 0 l.
Proof. unfold spin_shuffle_idx. rewrite fold_blocks. reflexivity. Qed.
Lemma blocks_length add l : forall acc, length (blocks add acc l) = list_sum l.
Proof. induction l as [|x r IH]; intros acc; [reflexivity|]. cbn [blocks]. rewrite app_length, seq_length, IH. reflexivity. Qed.
Lemma blocks_nth add l : forall acc f x, f < length l -> x < nth f l 0 -> nth (list_sum (firstn f l) + x) (blocks add acc l) 0 = 2 * (acc + list_sum (firstn f l)) + add (nth f l 0) + x.
Proof.
  induction l as [|y r IH]; intros acc f x Hf Hx; [cbn in Hf; lia|]. destruct f as [|f]; cbn [firstn nth blocks length] in *.
  - change (list_sum []) with 0. rewrite app_nth1 by (rewrite seq_length; lia). rewrite seq_nth by lia. lia.
  - change (list_sum (y :: firstn f r)) with (y + list_sum (firstn f r)). rewrite app_nth2 by (rewrite seq_length; lia). rewrite seq_length. replace (y + list_sum (firstn f r) + x - y) with (list_sum (firstn f r) + x) by lia. rewrite IH by lia. lia.
Qed.
Lemma sum_double l : list_sum (map (Nat.mul 2) l) = 2 * list_sum l.
Proof. induction l as [|x r IH]; [reflexivity|]. change (2 * x + list_sum (map (Nat.mul 2) r) = 2 * (x + list_sum r)). lia. Qed.
(** entry i of the index vector is the place of spin orbital i among the mapped fragments *)
Lemma idx_locate l i : let N := list_sum l in i < 2 * N -> let fx := locate l (i mod N) in
  nth i (spin_shuffle_idx l) 0 < 2 * N /\ locate (map (Nat.mul 2) l) (nth i (spin_shuffle_idx l) 0) = (fst fx, (if down (i / N) then nth (fst fx) l 0 else 0) + snd fx).
Proof.
  intros N Hi fx. assert (HN : 0 < N) by lia. assert (Hm : i mod N < N) by (apply Nat.mod_upper_bound; lia).
  destruct (locate_spec l (i mod N) Hm) as (A & B & D). fold fx in A, B, D. destruct fx as [f x]. cbn [fst snd] in *.
  assert (V : nth i (spin_shuffle_idx l) 0 = 2 * list_sum (firstn f l) + ((if down (i / N) then nth f l 0 else 0) + x)).
  { rewrite idx_blocks. destruct (le_lt_dec N i) as [L|L].
    - assert (E : i / N = 1) by (symmetry; apply (Nat.div_unique i N 1 (i - N)); lia). assert (M : i mod N = i - N) by (symmetry; apply (Nat.mod_unique i N 1 (i - N)); lia). rewrite E. cbn [down Nat.eqb negb].
      rewrite app_nth2 by (rewrite blocks_length; exact L). rewrite blocks_length. fold N. rewrite <- M, D, blocks_nth by assumption. lia.
    - rewrite Nat.div_small by exact L. cbn [down Nat.eqb negb]. rewrite app_nth1 by (rewrite blocks_length; exact L). rewrite <- (Nat.mod_small i N L), D, blocks_nth by assumption. lia. }
  rewrite V. assert (Lf : list_sum (firstn f (map (Nat.mul 2) l)) = 2 * list_sum (firstn f l)) by (rewrite firstn_map; apply sum_double).
  assert (Hy : (if down (i / N) then nth f l 0 else 0) + x < nth f (map (Nat.mul 2) l) 0) by (rewrite (nth_indep (map (Nat.mul 2) l) 0 (2 * 0)) by (rewrite map_length; exact A); rewrite map_nth; destruct (down (i / N)); lia).
  destruct (locate_off (map (Nat.mul 2) l) f _ ltac:(rewrite map_length; exact A) Hy) as [G1 G2]. rewrite Lf in G1, G2. rewrite sum_double in G1. split; [exact G1|exact G2].
Qed.

Section Main.
Variables (K : star_ring) (C : ci_set K) (ptr : nat -> nat -> nat).
Add Ring Kr : (sring K).
Notation N := (norb (c_nf C) (c_norb C)).
Hypothesis Hsh : well_shared C ptr.
Hypothesis Hfr : first_roots C.
Hypothesis Hur : forall f r, f < c_nf C -> r < c_nroots C -> c_ur C f r < c_nu C f.
Lemma mapped_at f r l : f < c_nf C -> r < c_nroots C -> ci_map2spinless (ci_fr C) ptr (c_norb C) (nelec_frs C) (c_nf C) (c_nroots C) f r l = spinless_mat (c_norb C f) (nelec_frs C f r) (ci_fr C f r l).
Proof.
  intros Hf Hr. unfold ci_map2spinless, first_position. destruct (find _ _) as [[i j]|] eqn:E; [|reflexivity]. apply find_some in E as [I E]. cbn [fst snd] in E. apply Nat.eqb_eq in E.
  unfold positions in I. apply in_flat_map in I as (i' & Ii & I). apply in_map_iff in I as (j' & [= <- <-] & Ij). apply in_seq in Ii, Ij. destruct (Hsh i' j' f r ltac:(lia) ltac:(lia) Hf Hr E) as (E1 & E2 & E3). now rewrite E1, E2, E3.
Qed.
Lemma mapped_vec r e f : f < c_nf C -> r < c_nroots C ->
  m_vec (space (spinless_ci C ptr)) f (c_ur C f r) (nth f e 0) = sfrag (c_norb C) K (fun f => c_ne C f (c_ur C f r)) (fun f => c_ci C f (c_ur C f r) (nth f e 0)) f.
Proof.
  intros Hf Hr. destruct (Hfr f (c_ur C f r) Hf (Hur f r Hf Hr)) as [H1 H2]. cbn [space m_vec spinless_ci c_norb c_ne c_ci]. rewrite mapped_at by assumption. unfold nelec_frs, ci_fr. rewrite H2. reflexivity.
Qed.
Lemma nlas_double : w_nlas (space (spinless_ci C ptr)) = map (Nat.mul 2) (w_nlas (space C)).
Proof. unfold w_nlas. rewrite map_map. reflexivity. Qed.
Lemma norb_double : norb (c_nf C) (fun f => 2 * c_norb C f) = 2 * N.
Proof. unfold norb, offn. rewrite <- sum_double, map_map. reflexivity. Qed.
Lemma spar_mapped r : r < c_nroots C -> spinK K (w_nelec (space (spinless_ci C ptr))) r = s1.
Proof.
  intros Hr. rewrite (spinK_is K (c_nf C) (fun f u => spinless_ne (c_ne C f u)) (c_ur C) (c_nroots C) (w_nelec (space (spinless_ci C ptr))) (fun r _ => eq_refl) r Hr). rewrite (spar_spl (c_nf C) (fun f => c_ne C f (c_ur C f r))). reflexivity.
Qed.
Lemma spar_orig r : r < c_nroots C -> spinK K (w_nelec (space C)) r = sg K (spar (c_nf C) (fun f => c_ne C f (c_ur C f r))) s1.
Proof. intros Hr. exact (spinK_is K (c_nf C) (c_ne C) (c_ur C) (c_nroots C) _ (fun r _ => eq_refl) r Hr). Qed.
Lemma mapped_elem r e r' e' ops : r < c_nroots C -> r' < c_nroots C -> Forall (okop (c_nf C) (c_norb C)) ops ->
  smul (factor K (space (spinless_ci C ptr)) (spinK K (w_nelec (space C))) r r')
    (inner K (2 * norb (c_nf C) (fun f => 2 * c_norb C f)) (product (space (spinless_ci C ptr)) r e) (gops K (c_nf C) (fun f => 2 * c_norb C f) (map (sop (c_norb C)) ops) (product (space (spinless_ci C ptr)) r' e'))) =
  inner K (2 * N) (product (space C) r e) (gops K (c_nf C) (c_norb C) ops (product (space C) r' e')).
Proof.
  intros Hr Hr' Ho. unfold factor. rewrite !spar_mapped, !spar_orig by assumption.
  pose proof (elem_spl (c_nf C) (c_norb C) K (fun f => c_ne C f (c_ur C f r)) (fun f => c_ne C f (c_ur C f r')) (fun f => c_ci C f (c_ur C f r) (nth f e 0)) (fun f => c_ci C f (c_ur C f r') (nth f e' 0))
    (fun f => m_vec (space (spinless_ci C ptr)) f (c_ur C f r) (nth f e 0)) (fun f => m_vec (space (spinless_ci C ptr)) f (c_ur C f r') (nth f e' 0)) ops Ho (fun f Hf => mapped_vec r e f Hf Hr) (fun f Hf => mapped_vec r' e' f Hf Hr')) as E.
  unfold elem in E. unfold product. cbn [space m_nf m_norb m_ur spinless_ci c_nf c_norb c_ur] in *. unfold twice in E. rewrite E. cbn [m_vec space].
  match goal with |- smul _ (sg K _ ?X) = _ => set (x := X) end. destruct (spar _ _), (spar _ _); unfold sg; cbn [xorb]; ring.
Qed.
End Main.

(** Whatever the numbers of electrons of each spin of the rootspaces, entry [bra,p,q,ket] of the first array is <bra| q' p |ket> for
    all pairs of spin orbitals, also of different spins, and the second array is as for rootspaces of equal spin, all between the
    original product states. *)
Theorem C67_spinless_mapping : forall (K : star_ring) (C : ci_set K) (ptr : nat -> nat -> nat) (half : K) (small big nz : K -> bool) (pyset : list nat -> list nat) (sched : nat -> list nat) (nthreads : nat),
  (forall x : K, sconj x = x) -> ci_ok C -> well_shared C ptr -> first_roots C -> small s0 = true -> set_like pyset ->
  sadd half half = s1 -> nz s0 = false -> (forall v, big v = false -> v = s0) ->
  (forall t, In t (w_tables (space (spinless_ci C ptr))) -> collision_free (w_uroot (space (spinless_ci C ptr))) t) ->
  0 < nthreads -> (forall n, Permutation (sched n) (seq 0 n)) -> let N := norb (c_nf C) (c_norb C) in 0 < N -> (64 * Z.of_nat N ^ 4 < 2 ^ 31)%Z ->
  is_spin_pure (c_nf C) (c_nroots C) (nelec_frs C) = false ->
  exists o1 o2 ne, make_stdm12s_of_ci C ptr sched nthreads half small big nz pyset = Ok (Mixed o1 o2, ne) /\
    forall r e r' e', r < c_nroots C -> r' < c_nroots C -> in_range (dims_of (w_lroots (space C)) r) e -> in_range (dims_of (w_lroots (space C)) r') e' ->
      let bra := product (space C) r e in let ket := product (space C) r' e' in let b := number (space C) r e in let k := number (space C) r' e' in
      (forall p q, p < 2 * N -> q < 2 * N -> o1 b p q k = dens1_any N bra ket p q) /\
      (forall s p q t v u, s < 2 -> t < 2 -> p < N -> q < N -> v < N -> u < N -> o2 b s p q t v u k = dens2 N bra ket s p q t v u).
Proof.
  intros K C ptr half small big nz pyset sched nthreads Hreal Hci Hsh Hfr Hs Hset Hh Hnz Hb Hcf Hth Hsch N HN Hint Hpure.
  pose proof Hci as (H8 & Hn & Hok & Hur).
  assert (Hci' : ci_ok (spinless_ci C ptr)).
  { split; [exact H8|]. split; [exact Hn|]. split; [|exact Hur]. intros f Hf. destruct (Hok f Hf) as (A & B & D). split; [exact A|]. split; [exact B|]. intros u Hu. destruct (D u Hu). cbn [spinless_ci c_ne c_norb spinless_ne fst snd]. lia. }
  assert (N2 : norb (c_nf C) (fun f => 2 * c_norb C f) = 2 * N) by apply norb_double.
  destruct (shuffled_of_ci K (spinless_ci C ptr) (spinK K (w_nelec (space C))) half small big nz pyset sched nthreads Hreal Hci' Hs Hset Hh Hnz Hb Hcf Hth Hsch) as (t1 & t2 & E & V).
  { cbn [spinless_ci c_nf c_norb]. rewrite N2. lia. }
  { cbn [spinless_ci c_nf c_norb]. rewrite N2. replace (Z.of_nat (2 * N) ^ 4)%Z with (16 * Z.of_nat N ^ 4)%Z; [lia|]. rewrite Nat2Z.inj_mul. ring. }
  unfold make_stdm12s_of_ci. rewrite Hpure, E. cbn [bind]. do 3 eexists. split; [reflexivity|].
  intros r e r' e' Hr Hr' R R'. set (b := number (space C) r e). set (k := number (space C) r' e'). specialize (V r e r' e' Hr Hr' R R'). cbv zeta in V. cbn [spinless_ci c_nf c_norb] in V. destruct V as [V1 V2].
  change (number (space (spinless_ci C ptr)) r e) with b in V1, V2. change (number (space (spinless_ci C ptr)) r' e') with k in V1, V2. rewrite N2 in V1, V2. rewrite nlas_double in V1, V2.
  assert (W : list_sum (w_nlas (space C)) = N) by reflexivity.
  assert (Lo : forall i, i < 2 * N -> let fx := locate (w_nlas (space C)) (i mod N) in nth i (spin_shuffle_idx (w_nlas (space C))) 0 < 2 * N /\
    locate (map (Nat.mul 2) (w_nlas (space C))) (nth i (spin_shuffle_idx (w_nlas (space C))) 0) = (fst fx, (if down (i / N) then c_norb C (fst fx) else 0) + snd fx) /\
    okop (c_nf C) (c_norb C) (true, (fst fx, down (i / N), snd fx)) /\ gorb (c_nf C) (c_norb C) (fst fx) (down (i / N)) (snd fx) = spin_major N i).
  { intros i Hi fx. assert (Hm : i mod N < N) by (apply Nat.mod_upper_bound; lia). destruct (idx_locate (w_nlas (space C)) i) as [G1 G2]; [rewrite W; exact Hi|]. rewrite W in G1, G2. fold fx in G2.
    destruct (w_loc (space C) (i mod N) Hm) as [[I1 I2] I3]. fold fx in I1, I2, I3. cbn [space m_nf m_norb] in *. split; [exact G1|]. split; [|split; [split; assumption|]].
    - rewrite G2. f_equal. destruct (down (i / N)); [|reflexivity]. f_equal. unfold w_nlas. cbn [space m_nf m_norb]. rewrite (nth_indep _ 0 (c_norb C 0)) by (rewrite map_length, seq_length; exact I1). rewrite map_nth, seq_nth by exact I1. reflexivity.
    - apply I3. apply Nat.div_lt_upper_bound; lia. }
  split.
  - intros p q Hp Hq. destruct (Lo p Hp) as (P1 & P2 & P3 & P4). destruct (Lo q Hq) as (Q1 & Q2 & Q3 & Q4). cbn [clean_up fst snd]. rewrite V1 by (first [lia|assumption]). rewrite P2, Q2. unfold dens1_any. rewrite <- P4, <- Q4.
    pose proof (mapped_elem K C ptr Hsh Hfr Hur r e r' e' [(true, (fst (locate (w_nlas (space C)) (q mod N)), down (q / N), snd (locate (w_nlas (space C)) (q mod N)))); (false, (fst (locate (w_nlas (space C)) (p mod N)), down (p / N), snd (locate (w_nlas (space C)) (p mod N))))]
      Hr Hr' ltac:(constructor; [exact Q3|constructor; [exact P3|constructor]])) as M. rewrite N2 in M. exact M.
  - intros s p q t v u Hs2 Ht Hp Hq Hv Hu. cbn [clean_up fst snd]. rewrite w_tot. change (norb (m_nf (space C)) (m_norb (space C))) with N.
    assert (J : forall s j, s < 2 -> j < N -> s * N + j < 2 * N /\ (s * N + j) / N = s /\ (s * N + j) mod N = j).
    { intros s' j H1 H2. split; [destruct s' as [|[|s']]; lia|]. rewrite Nat.add_comm. split; [rewrite Nat.div_add by lia; rewrite Nat.div_small by exact H2; reflexivity|rewrite Nat.mod_add by lia; now apply Nat.mod_small]. }
    destruct (J s p Hs2 Hp) as (Jp & Jp1 & Jp2). destruct (J s q Hs2 Hq) as (Jq & Jq1 & Jq2). destruct (J t v Ht Hv) as (Jv & Jv1 & Jv2). destruct (J t u Ht Hu) as (Ju & Ju1 & Ju2).
    destruct (Lo _ Jp) as (P1 & P2 & P3 & P4). destruct (Lo _ Jq) as (Q1 & Q2 & Q3 & Q4). destruct (Lo _ Jv) as (R1 & R2 & R3 & R4). destruct (Lo _ Ju) as (U1 & U2 & U3 & U4).
    unfold spin_major in P4, Q4, R4, U4. rewrite Jp1, Jp2 in *. rewrite Jq1, Jq2 in *. rewrite Jv1, Jv2 in *. rewrite Ju1, Ju2 in *.
    rewrite V2 by (first [lia|assumption]). rewrite P2, Q2, R2, U2. unfold dens2. rewrite <- P4, <- Q4, <- R4, <- U4.
    set (lo := locate (w_nlas (space C))).
    pose proof (mapped_elem K C ptr Hsh Hfr Hur r e r' e' [(true, (fst (lo p), down s, snd (lo p))); (true, (fst (lo v), down t, snd (lo v))); (false, (fst (lo u), down t, snd (lo u))); (false, (fst (lo q), down s, snd (lo q)))]
      Hr Hr' ltac:(repeat (constructor; [assumption|]); constructor)) as M. rewrite N2 in M. exact M.
Qed.
Print Assumptions C67_spinless_mapping.

(** When all rootspaces have the same numbers of electrons of each spin, the arrays are those of C66. *)
Theorem C67_spin_pure : forall (K : star_ring) (C : ci_set K) (ptr : nat -> nat -> nat) (half : K) (small big nz : K -> bool) (pyset : list nat -> list nat) (sched : nat -> list nat) (nthreads : nat),
  (forall x : K, sconj x = x) -> ci_ok C -> small s0 = true -> set_like pyset ->
  sadd half half = s1 -> nz s0 = false -> (forall v, big v = false -> v = s0) ->
  (forall t, In t (w_tables (space C)) -> collision_free (w_uroot (space C)) t) ->
  0 < nthreads -> (forall n, Permutation (sched n) (seq 0 n)) -> let N := norb (c_nf C) (c_norb C) in 0 < N -> (4 * Z.of_nat N ^ 4 < 2 ^ 31)%Z ->
  (forall r r', r < c_nroots C -> r' < c_nroots C -> total_nelec (c_nf C) (nelec_frs C) r = total_nelec (c_nf C) (nelec_frs C) r') ->
  exists o1 o2, make_stdm12s_of_ci C ptr sched nthreads half small big nz pyset = Ok (Pure o1 o2, nelec_frs C) /\
    forall r e r' e', r < c_nroots C -> r' < c_nroots C -> in_range (dims_of (w_lroots (space C)) r) e -> in_range (dims_of (w_lroots (space C)) r') e' ->
      let bra := product (space C) r e in let ket := product (space C) r' e' in
      (forall s p q, s < 2 -> p < N -> q < N -> o1 (number (space C) r e) s p q (number (space C) r' e') = dens1 N bra ket s p q) /\
      (forall s p q t v u, s < 2 -> t < 2 -> p < N -> q < N -> v < N -> u < N -> o2 (number (space C) r e) s p q t v u (number (space C) r' e') = dens2 N bra ket s p q t v u).
Proof.
  intros K C ptr half small big nz pyset sched nthreads Hreal Hci Hs Hset Hh Hnz Hb Hcf Hth Hsch N HN Hint Hp.
  destruct (C66_stdm12s_of_ci K C half small big nz pyset sched nthreads Hreal Hci Hs Hset Hh Hnz Hb Hcf Hth Hsch HN Hint) as (o1 & o2 & E & V). exists o1, o2. split; [|exact V].
  unfold make_stdm12s_of_ci. replace (is_spin_pure (c_nf C) (c_nroots C) (nelec_frs C)) with true; [rewrite E; reflexivity|]. symmetry. unfold is_spin_pure. destruct Hci as (_ & Hn & _).
  apply andb_true_iff. split; [now apply Nat.ltb_lt|]. apply forallb_forall. intros r Ir. apply in_seq in Ir. rewrite (Hp r 0) by lia. unfold same_ne. now rewrite !Nat.eqb_refl.
Qed.
Print Assumptions C67_spin_pure.

(** Every rootspace of every fragment gets the spinless form of its own array, if arrays at one address are one array. *)
Theorem C67_own_arrays : forall (K : star_ring) (ci0 : nat -> nat -> nat -> mat K) (ptr : nat -> nat -> nat) (norb : nat -> nat) (nelec : nat -> nat -> nat * nat) (nf nroots : nat),
  (forall f r f' r', f < nf -> r < nroots -> f' < nf -> r' < nroots -> ptr f r = ptr f' r' -> ci0 f r = ci0 f' r' /\ norb f = norb f' /\ nelec f r = nelec f' r') ->
  forall f r l x, f < nf -> r < nroots -> ci_map2spinless ci0 ptr norb nelec nf nroots f r l x 0 = ss2spinless (norb f) (fst (nelec f r) + snd (nelec f r)) (nelec f r) (ci0 f r l) x.
Proof.
  intros K ci0 ptr norb nelec nf nroots Hsh f r l x Hf Hr. unfold ci_map2spinless, first_position. destruct (find _ _) as [[i j]|] eqn:E; [|reflexivity]. apply find_some in E as [I E]. cbn [fst snd] in E. apply Nat.eqb_eq in E.
  unfold positions in I. apply in_flat_map in I as (i' & Ii & I). apply in_map_iff in I as (j' & [= <- <-] & Ij). apply in_seq in Ii, Ij. destruct (Hsh i' j' f r ltac:(lia) ltac:(lia) Hf Hr E) as (E1 & E2 & E3). now rewrite E1, E2, E3.
Qed.
Print Assumptions C67_own_arrays.

(** It is not enough that every array is right by itself: an array and its transpose, a view at the same address, are one array to
    ci_map2spinless.  A state with one electron of spin up and the same with spin down become the same state. *)
Theorem C67_views_refuted : exists (ci0 : nat -> nat -> nat -> mat Qs) (ptr : nat -> nat -> nat) (nelec : nat -> nat -> nat * nat),
  (forall l x y, ci0 0 1 l x y = ci0 0 0 l y x) /\ ptr 0 0 = ptr 0 1 /\ nelec 0 0 = (1, 0) /\ nelec 0 1 = (0, 1) /\
  ci_map2spinless ci0 ptr (fun _ => 1) nelec 1 2 0 1 0 0 0 <> spinless_mat 1 (0, 1) (ci0 0 1 0) 0 0.
Proof.
  exists (fun _ _ _ x y => if (x =? 0) && (y =? 0) then zq 1 else zq 0), (fun _ _ => 7), (fun _ r => if r =? 0 then (1, 0) else (0, 1)). split; [intros; now rewrite andb_comm|]. split; [reflexivity|]. split; [reflexivity|]. split; [reflexivity|].
  intros H. apply (f_equal this) in H. vm_compute in H. discriminate H.
Qed.
Print Assumptions C67_views_refuted.

(** Two fragments of one orbital in four rootspaces with spins (2,0), (1,1), (1,1), (0,2); spin-flip elements. *)
Definition sp_ne (f u : nat) : nat * nat := nth u (nth f [[(1, 0); (1, 1); (0, 1)]; [(1, 0); (0, 1); (0, 0)]] []) (0, 0).
Definition sp_ur (f r : nat) : nat := nth f (nth r [[0; 0]; [0; 1]; [1; 2]; [2; 1]] []) 0.
Definition sp_uaddr (f u : nat) : nat := nth u (nth f [[0; 2; 3]; [0; 1; 2]] []) 3.
Definition sp_ci (f u i : nat) : mat Qs := fun x y => zq (Z.of_nat ((3 * x + 2 * y + f + 2 * u + i) mod 5) + 1).
Definition sp_C : ci_set Qs := mkCI 2 (fun f => 1) (fun _ => 3) sp_uaddr sp_ci sp_ne (fun f u => if u <? 3 then if (f =? 1) && (u =? 0) then 2 else 1 else 0) sp_ur 4.
Definition sp_states : list (nat * list nat) := [(0, [0; 0]); (0, [0; 1]); (1, [0; 0]); (2, [0; 0]); (3, [0; 0])].
Definition sp_ptr (f r : nat) : nat := 10 * f + sp_ur f r.
Notation sp_out := (make_stdm12s_of_ci sp_C sp_ptr (fun n => rev (seq 0 n)) 3 hq (fun v => negb (x_big v)) x_big x_big x_set) (only parsing).
Definition sp_samples : list ((nat * nat) * list nat * Z) := [
  ((0, 0), [1; 1], (4)%Z); ((1, 2), [3; 1], (-12)%Z); ((2, 3), [2; 3], (12)%Z); ((3, 4), [3; 0], (60)%Z); ((4, 2), [0; 2], (-80)%Z); ((2, 4), [2; 0], (-80)%Z); ((0, 4), [0; 0], (0)%Z);
  ((2, 3), [0; 0; 0; 1; 1; 0], (12)%Z); ((3, 2), [0; 0; 0; 1; 0; 1], (12)%Z); ((3, 3), [1; 0; 0; 0; 0; 0], (9)%Z)].
Definition sp_check (out : res (@returned Qs * (nat -> nat -> nat * nat))) : bool := match out with Ok (Mixed o1 o2, ne) =>
    forallb (fun c => let '((i, j), x, v) := c in let a := nth i sp_states (0, []) in let b := nth j sp_states (0, []) in
      let bra := product (space sp_C) (fst a) (snd a) in let ket := product (space sp_C) (fst b) (snd b) in
      (number (space sp_C) (fst a) (snd a) =? i) && (number (space sp_C) (fst b) (snd b) =? j) &&
      match x with
      | [p; q] => z_eq (o1 i p q j) (zq v) && z_eq (dens1_any 2 bra ket p q) (zq v)
      | [s; p; q; t; r; u] => z_eq (o2 i s p q t r u j) (zq v) && z_eq (dens2 2 bra ket s p q t r u) (zq v)
      | _ => false end) sp_samples | _ => false end.
Example C67_example : ci_ok sp_C /\ well_shared sp_C sp_ptr /\ first_roots sp_C /\ is_spin_pure 2 4 (nelec_frs sp_C) = false /\ spin_shuffle_idx [1; 2] = [0; 2; 3; 1; 4; 5] /\ sp_check sp_out = true.
Proof.
  split; [|split; [|split; [|split; [vm_compute; reflexivity|split; [vm_compute; reflexivity|vm_compute; reflexivity]]]]].
  - split; [cbn; lia|]. split; [cbn; lia|]. cbn [sp_C c_nf c_nroots c_ur c_nu]. split.
    + intros f Hf. split; [|split].
      * intros a b H. cbn [sp_C c_uaddr]. unfold sp_uaddr. destruct f as [|[|f]]; [| |lia]; destruct a as [|[|[|a]]], b as [|[|[|b]]]; cbn; try lia; try (destruct a; cbn; lia); try (destruct b; cbn; lia); destruct a, b; cbn; lia.
      * intros u. cbn [sp_C c_nl c_nu]. destruct (Nat.ltb_spec u 3); [|lia]. destruct (_ && _); lia.
      * intros u Hu. cbn [sp_C c_ne c_norb c_nu] in *. unfold sp_ne. destruct f as [|[|f]]; [| |lia]; destruct u as [|[|[|u]]]; cbn; lia.
    + intros f r Hf Hr. unfold sp_ur. destruct f as [|[|f]]; [| |lia]; destruct r as [|[|[|[|r]]]]; cbn; lia.
  - intros f r f' r' Hf Hr Hf' Hr' E. cbn [sp_C c_nf c_nroots] in *. unfold sp_ptr in E.
    assert (G : forall g s, g < 2 -> s < 4 -> sp_ur g s < 10) by (intros g s H1 H2; unfold sp_ur; destruct g as [|[|g]]; [| |lia]; destruct s as [|[|[|[|s]]]]; cbn; lia).
    pose proof (G f r Hf Hr). pose proof (G f' r' Hf' Hr'). assert (f = f') by lia. subst f'. assert (Eu : sp_ur f r = sp_ur f r') by lia. unfold ci_fr, nelec_frs. cbn [sp_C c_ci c_ur c_ne]. rewrite Eu. auto.
  - intros f u Hf Hu. cbn [sp_C c_nf c_nroots c_ur c_nu c_uaddr] in *. unfold sp_ur, sp_uaddr. destruct f as [|[|f]]; [| |lia]; destruct u as [|[|[|u]]]; cbn; lia.
Qed.

Lemma ne_after {K : star_ring} (C : ci_set K) ptr sched nthreads half small big nz pyset o ne : is_spin_pure (c_nf C) (c_nroots C) (nelec_frs C) = false ->
  make_stdm12s_of_ci C ptr sched nthreads half small big nz pyset = Ok (o, ne) -> ne = fun f r => spinless_ne (nelec_frs C f r).
Proof. unfold make_stdm12s_of_ci. intros ->. destruct (stdm12s_of_ci_shuffled _ _ _ _ _ _ _ _ _); [|discriminate]. cbn [bind]. congruence. Qed.
Lemma check_ok out : sp_check out = true -> exists o ne, out = Ok (o, ne).
Proof. destruct out as [[o ne]|e]; [eauto|discriminate]. Qed.
(** The array nelec_frs of the caller is overwritten. *)
Theorem C67_argument_refuted : exists (C : ci_set Qs) (ptr : nat -> nat -> nat), ci_ok C /\ well_shared C ptr /\ first_roots C /\
  exists sched nthreads half small big nz pyset o ne, make_stdm12s_of_ci C ptr sched nthreads half small big nz pyset = Ok (o, ne) /\ nelec_frs C 1 1 = (0, 1) /\ ne 1 1 = (1, 0).
Proof.
  exists sp_C, sp_ptr. destruct C67_example as (H1 & H2 & H3 & H4 & _ & H5). split; [exact H1|]. split; [exact H2|]. split; [exact H3|].
  destruct (check_ok sp_out H5) as (o & ne & E). do 7 eexists. exists o, ne. split; [exact E|]. split; [reflexivity|]. rewrite (ne_after sp_C _ _ _ _ _ _ _ _ o ne (H4 : is_spin_pure (c_nf sp_C) (c_nroots sp_C) (nelec_frs sp_C) = false) E). reflexivity.
Qed.
Print Assumptions C67_argument_refuted.
