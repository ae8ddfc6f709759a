(** The Hamiltonian and squared-spin matrices are contractions of the transition density matrices. *)
From Coq Require Import List NArith ZArith Arith Bool Lia Sorting.Permutation Sorted.
From Verif Require Import Base BaseFacts Star AddrModel AddrSpec AddrProofs SCModel SCSpec SCMach SCPrint FockSpec FockFacts FockOps LprodSpec LasElem SignsModel SignsFacts LasSigns ExcSpec ExcModel UexcModel PropExc PropUexc.
From Verif Require Import StdmModel StdmFacts StdmSum PropStdm CrunchModel CrunchSpec CrunchFacts CrunchRows CrunchAll CrunchPair CrunchEnd PropCrunch HamModel HamSum HamRows HamVals HamLoop HamFlat HamSim HamSpman.
Import ListNotations.
Local Open Scope nat_scope.

(** rows of one table for one pair of rootspaces differ in their fragments *)
Lemma rows_inj nf nelec scai t r1 r2 : admissible nf nelec scai -> NoDup scai -> In t (interaction_tables (make_exc_tables nf (hopping_index nelec) scai)) -> In r1 t -> In r2 t ->
  pair_of r1 = pair_of r2 -> (forall f, In f (e_frags r1) <-> In f (e_frags r2)) -> r1 = r2.
Proof.
  intros Ad Nd Ht I1 I2 E F. pose proof (base_inj nf nelec scai Ad Nd) as B. pose proof (base_in nf nelec scai) as Bi. destruct (C54_spectators _ _ _ Ad Nd) as (_ & S1 & S2 & S3).
  destruct (C54_rows _ _ _ Ad) as (R0 & R1 & _). cbv zeta in *. set (T := make_exc_tables nf (hopping_index nelec) scai) in *.
  destruct r1 as [b1 k1 f1 s1], r2 as [b2 k2 f2 s2]. cbn [pair_of e_bra e_ket e_frags] in *. unfold pair_of in E. cbn in E. injection E as -> ->.
  cbn in Ht. destruct Ht as [<-|[<-|[<-|[<-|[<-|[<-|[<-|[]]]]]]]].
  - apply S1 in I1 as (i & -> & _ & I1). apply S1 in I2 as (j & -> & _ & I2). assert (i = j) by (destruct (proj1 (F i) ltac:(now left)) as [->|[]]; reflexivity). subst.
    assert (Q : mkRow b2 k2 [] s1 = mkRow b2 k2 [] s2) by (apply B; auto; rewrite Bi; tauto). congruence.
  - apply S2 in I1 as (i & j & -> & L1 & I1). apply S2 in I2 as (i' & j' & -> & L2 & I2). pose proof (proj1 (F i) ltac:(now left)) as F1. pose proof (proj1 (F j) ltac:(right; now left)) as F2. pose proof (proj2 (F i') ltac:(now left)) as F3. cbn in F1, F2, F3.
    assert (i = i' /\ j = j') as [-> ->] by lia. assert (Q : mkRow b2 k2 [] s1 = mkRow b2 k2 [] s2) by (apply B; auto; rewrite Bi; tauto). congruence.
  - apply B; auto; rewrite Bi; tauto.
  - apply S3 in I1 as (i & j & f & -> & _ & N1 & N2 & I1). apply S3 in I2 as (i' & j' & f' & -> & _ & N1' & N2' & I2).
    assert (Q : mkRow b2 k2 [i; j] s1 = mkRow b2 k2 [i'; j'] s2) by (apply B; auto; rewrite Bi; tauto). injection Q as -> -> ->.
    pose proof (proj1 (F f) ltac:(cbn; auto)) as F1. cbn in F1. destruct F1 as [F1|[F1|[F1|[]]]]; congruence.
  - apply B; auto; rewrite Bi; tauto.
  - apply B; auto; rewrite Bi; tauto.
  - apply B; auto; rewrite Bi; tauto.
Qed.
Lemma asc_sorted l : Forall (fun f => f < 8) l -> forall s, list_set l = Ok s -> StronglySorted lt s.
Proof.
  intros F s E. rewrite (list_set_ascending l 8) in E by assumption. assert (Q : s = filter (fun f => mem f l) (seq 0 8)) by congruence. clear E. subst s.
  assert (G : forall k m (p : nat -> bool), StronglySorted lt (filter p (seq k m))).
  { intros k m p. revert k. induction m as [|m IH]; intros k; cbn; [constructor|]. destruct (p k); [|apply IH]. constructor; [apply IH|]. apply Forall_forall. intros x Hx. apply filter_In in Hx as [Hx _]. apply in_seq in Hx. lia. }
  apply G.
Qed.
Lemma half_real (K : star_ring) (half : K) : sadd half half = s1 -> sconj half = half.
Proof.
  intros H. assert (H' : sadd (sconj half) (sconj half) = s1) by (rewrite <- sconj_add, H; apply conj_one).
  pose proof (sring K) as Rg. assert (Q : forall h g : K, sadd h h = s1 -> sadd g g = s1 -> g = h).
  { intros h g E1 E2. transitivity (smul g (sadd h h)); [rewrite E1; destruct Rg; now rewrite Rmul_comm, Rmul_1_l|]. transitivity (smul h (sadd g g)); [|rewrite E2; destruct Rg; now rewrite Rmul_comm, Rmul_1_l].
    destruct Rg. rewrite (Rmul_comm g), (Rmul_comm h). now rewrite !Rdistr_l, (Rmul_comm h g). }
  now apply Q.
Qed.

Section Sums.
  Context {K : star_ring}.
  Add Ring Kr : (sring K).
  Variables (nf : nat) (n : nat -> nat).
  Lemma gsum_ext_in (F G : tix -> K) : (forall x, tix_in nf n x -> F x = G x) -> gsum nf n F = gsum nf n G.
  Proof.
    intros H. assert (O : forall p, In p (orbs nf n) -> orb_in nf n p).
    { intros [f i] I. unfold orbs in I. apply in_flat_map in I as (g & Ig & I). apply in_seq in Ig. apply in_map_iff in I as (j & E & Ij). apply in_seq in Ij. injection E as -> ->. unfold orb_in. cbn. lia. }
    unfold gsum, gsum1, gsum2. f_equal.
    - apply bsum_ext. intros s Is. apply in_seq in Is. apply bsum_ext. intros p Ip. apply bsum_ext. intros q Iq. apply H. cbn. repeat split; try lia; try (apply O; assumption); try (apply (O _ Ip)); try (apply (O _ Iq)).
    - apply bsum_ext. intros b Ib. apply in_seq in Ib. apply bsum_ext. intros p Ip. apply bsum_ext. intros q Iq. apply bsum_ext. intros r Ir. apply bsum_ext. intros u Iu. apply H. cbn. repeat split; try lia; try (apply (O _ Ip)); try (apply (O _ Iq)); try (apply (O _ Ir)); try (apply (O _ Iu)).
  Qed.
  Lemma gsum_mul_l (F : tix -> K) c : smul c (gsum nf n F) = gsum nf n (fun x => smul c (F x)).
  Proof. transitivity (smul (gsum nf n F) c); [ring|]. rewrite gsum_mul_r. apply gsum_ext. intros x. ring. Qed.
End Sums.

Lemma ninv_same nf nelec lbl row : shape nf nelec lbl row -> forall f, In f (ninv lbl (e_frags row)) <-> In f (e_frags row).
Proof. intros Sh f. destruct Sh; cbn; tauto. Qed.

Section Value.
Variables (K : star_ring) (nf : nat) (n : nat -> nat).
Add Ring Kr2 : (sring K).
Variables (V : nat -> nat -> nat -> vec K) (ne : nat -> nat -> nat * nat) (nl : nat -> nat -> nat).
Variables (ints : nat -> @fmats K) (ur : nat -> nat -> nat) (nelec_rf : nat -> list nat) (nz : K -> bool).
Hypothesis H8 : nf <= 8.
Hypothesis Hne : forall f a i, f < nf -> i < nl f a -> has_nelec K (n f) (ne f a) (V f a i).
Hypothesis Hex : forall f, f < nf -> exact K n V ne nl f (ints f).
Hypothesis Hfit : forall f a, f < nf -> 0 < nl f a -> fst (ne f a) <= n f /\ snd (ne f a) <= n f.
Hypothesis Hnz : nz s0 = false.
Variables (nroots : nat) (nelec : nat -> list (Z * Z)) (lroots : list (list nat)).
Hypothesis Hel : forall r, r < nroots -> nelec r = map (fun f => (Z.of_nat (fst (ne f (ur f r))), Z.of_nat (snd (ne f (ur f r))))) (seq 0 nf).
Hypothesis Hrf : forall r, r < nroots -> nelec_rf r = map (CrunchRows.tot ne ur r) (seq 0 nf).
Hypothesis Hlen : length lroots = nf.
Hypothesis Hlr : forall f r, f < nf -> r < nroots -> nth r (nth f lroots []) 0 = nl f (ur f r).
Variable scai : list (nat * nat).
Hypothesis Ad : admissible nf nelec scai.
Hypothesis Nd : NoDup scai.
Hypothesis Hin : forall p, In p scai -> fst p < nroots /\ snd p < nroots.
Variables (half : K) (h1 : nat -> nat * nat -> nat * nat -> K) (h2 : nat * nat -> nat * nat -> nat * nat -> nat * nat -> K).
Hypothesis Hhalf : sadd half half = s1.
Hypothesis Hpair : forall p q r u, h2 p q r u = h2 r u p q.
Hypothesis Htr : forall p q r u, h2 p q r u = h2 q p u r.
Let T := make_exc_tables nf (hopping_index nelec) scai.
Let tabs := interaction_tables T.
Notation D := (crunch_D n ints ur nelec_rf nz).
Let conn_of := mkconn nf ne nl ur nroots nelec lroots Hel Hlr.

Lemma row_ham lbl t row e e' : nth_error tabs lbl = Some t -> In row t -> within lroots (e_bra row) (e_frags row) e -> within lroots (e_ket row) (e_frags row) e' ->
  val_is K nf n V ne ur half h1 h2 (e_bra row, e) (e_ket row, e') (e_frags row) (crunch_ham half n ints ur nelec_rf h1 h2 (e_bra row, e) (e_ket row, e') lbl (e_frags row) (e_spin row)).
Proof.
  intros Ht Hr We Wk. destruct (row_pair nf nroots nelec lroots Hlen scai Ad Nd Hin lbl t row Ht Hr) as (_ & Hf & Hb & Hk). pose proof (row_shape nf nelec scai Ad Nd lbl t row Ht Hr) as Sh.
  assert (Rb : nelec_rf (fst (e_bra row, e)) = map (CrunchRows.tot ne ur (fst (e_bra row, e))) (seq 0 nf)) by now apply Hrf. assert (Rk : nelec_rf (fst (e_ket row, e')) = map (CrunchRows.tot ne ur (fst (e_ket row, e'))) (seq 0 nf)) by now apply Hrf.
  destruct Sh; cbn [e_bra e_ket e_frags e_spin crunch_ham] in *.
  - apply (val_1d K nf n V ne nl); auto. apply conn_of; auto; intros z [].
  - apply (val_2d K nf n V ne nl); auto. apply conn_of; auto; intros z [].
  - apply (val_1c K nf n V ne nl); auto. apply conn_of; auto; intros z; cbn [app In]; [intros [<-|[<-|[]]]; cbn; auto|intros [<-|[]] [E|[]]; congruence].
  - apply (val_1c1d K nf n V ne nl); auto. apply conn_of; auto; intros z; cbn [app In]; [intros [<-|[<-|[]]]; cbn; auto|intros [<-|[]] [E|[]]; congruence].
  - apply (val_1s K nf n V ne nl); auto. apply conn_of; auto; intros z; cbn [app In]; [intros [<-|[<-|[<-|[<-|[]]]]]; cbn; auto|intros [<-|[<-|[]]] [E|[E|[]]]; congruence].
  - assert (ND : i <> j /\ i <> l /\ j <> l). { match goal with H : NoDup _ |- _ => apply NoDup_cons_iff in H as [N1 H]; apply NoDup_cons_iff in H as [N2 _]; cbn in N1, N2 end. repeat split; intros ->; tauto. } destruct ND as (N1 & N2 & N3).
    apply (val_1s1c K nf n V ne nl); auto. apply conn_of; auto; intros z; cbn [app In]; [intros [<-|[<-|[<-|[<-|[]]]]]; cbn [fst snd]; (split; [auto|lia])|intros [<-|[<-|[]]] [E|[E|[]]]; destruct s as [|[|s]]; cbn in E; try congruence; lia].
  - apply (val_2c K nf n V ne nl ints ur nelec_rf nz); auto. assert (Sp : CrunchRows.sp1 s < 2 /\ CrunchRows.sp2 s < 2) by (destruct s as [|[|[|]]]; cbn; lia).
    apply conn_of; auto; intros z; cbn [app In]; [intros [<-|[<-|[<-|[<-|[]]]]]; cbn [fst snd]; (split; [auto 6|tauto])|intros [<-|[<-|[]]] [E|[E|[]]]; congruence].
Qed.
(** the numbers of a row are contractions of its density matrices *)
Lemma ham_value lbl t row e e' : nth_error tabs lbl = Some t -> In row t -> within lroots (e_bra row) (e_frags row) e -> within lroots (e_ket row) (e_frags row) e' ->
  exists v, crunch_ham half n ints ur nelec_rf h1 h2 (e_bra row, e) (e_ket row, e') lbl (e_frags row) (e_spin row) = Ok v /\
    fst v = gsum nf n (fun x => smul (hx K half h1 h2 x) (D lbl (e_frags row) (e_spin row) (e_bra row, e) (e_ket row, e') x)) /\
    some0 (snd v) = gsum nf n (fun x => smul (sx K half x) (D lbl (e_frags row) (e_spin row) (e_bra row, e) (e_ket row, e') x)).
Proof.
  intros Ht Hr We Wk. destruct (row_ham lbl t row e e' Ht Hr We Wk) as (v & E & E1 & E2). exists v. split; [exact E|].
  assert (G : forall g : tix -> K, gsum nf n (fun x => smul (g x) (D lbl (e_frags row) (e_spin row) (e_bra row, e) (e_ket row, e') x)) = target K nf n V ne ur (e_bra row, e) (e_ket row, e') g (e_frags row)).
  { intros g. apply gsum_ext. intros x. f_equal. exact (D_value K nf n V ne nl ints ur nelec_rf nz H8 Hne Hex Hfit Hnz nroots nelec lroots Hel Hrf Hlen Hlr scai Ad Nd Hin lbl t row e e' x Ht Hr We Wk). }
  rewrite !G. split; [exact E1|]. destruct (snd v); exact E2.
Qed.
End Value.

(** hams2ovlp.HamS2Ovlp.kernel without get_ovlp and for an empty umat_root: lines 104-127, with the tables of init_profiling; [shuffle] is the
    attribute spin_shuffle, which is overwritten in the spinless mapping (lines 613-614) *)
Definition make_ham_shuffled {K : star_ring} (P : model_space K) (shuffle : nat -> K) (half : K) (big : K -> bool) (pyset : list nat -> list nat) (ints : nat -> @fmats K) (ovlp : nat -> nat -> nat -> list (list K))
    (hash : list Z -> Z) (h1 : nat -> nat * nat -> nat * nat -> K) (h2 : nat * nat -> nat * nat -> nat * nat -> nat * nat -> K) : res (mat * mat) :=
  do rf <- get_rootaddr_fragaddr (w_lroots P) ;;
  let ud := mask_exc_tables (w_uroot P) true (fun _ => true) (w_tables P) in
  let sm := spman_tables hash (w_uroot P) (fst ud) in
  ham_all half big pyset (w_lroots P) ovlp shuffle (fragK K (w_nelec_rf P)) (snd rf)
    (fun lbl fr s bra ket => crunch_ham half (m_norb P) ints (m_ur P) (w_nelec_rf P) h1 h2 bra ket lbl fr s) (snd ud) (snd sm) (fst sm).
Definition make_ham {K : star_ring} (P : model_space K) (half : K) (big : K -> bool) (pyset : list nat -> list nat) (ints : nat -> @fmats K) (ovlp : nat -> nat -> nat -> list (list K))
    (hash : list Z -> Z) (h1 : nat -> nat * nat -> nat * nat -> K) (h2 : nat * nat -> nat * nat -> nat * nat -> nat * nat -> K) : res (mat * mat) :=
  make_ham_shuffled P (spinK K (w_nelec P)) half big pyset ints ovlp hash h1 h2.

Section Images.
  Context {K : star_ring}.
  Variable P : model_space K.
  Hypothesis Pp : proper P.
  Hypothesis Hcf : forall t, In t (w_tables P) -> collision_free (w_uroot P) t.
  Let uroot := w_uroot P.
  Let tabs := w_tables P.
  Let ud := mask_exc_tables uroot true (fun _ => true) tabs.
  Let dict := snd ud.
  Definition imgs (u : erow) : list (nat * nat) := match get_key (key_of u) dict with Some l => l | None => [] end.
  Lemma keep_all (t : list erow) : filter (fun _ => true) t = t.
  Proof. induction t as [|a t IH]; [reflexivity|]. cbn. now rewrite IH. Qed.
  Lemma fst_ud : fst ud = map (fun t => fst (find_unique_exc uroot true t)) tabs.
  Proof. unfold ud, mask_exc_tables. cbn [fst]. rewrite map_map. apply map_ext. intros t. now rewrite keep_all. Qed.
  Lemma dict_at t u : In t tabs -> In u (fst (find_unique_exc uroot true t)) -> get_key (key_of u) dict = Some (imgs u) /\ In (key_of u, imgs u) (snd (find_unique_exc uroot true t)).
  Proof.
    intros Ht Hu. destruct (C55_lookup (m_nf P) (w_nelec P) (w_scai P) uroot true (fun _ => true) (w_admissible P) (w_nodup P)) as [_ L]. specialize (L t Ht). cbv zeta in L. rewrite keep_all in L.
    destruct (In_nth _ _ dflt Hu) as (i & Hi & Ei). destruct (L i Hi) as (l & E1 & E2). rewrite Ei in E1, E2. change (get_key (key_of u) dict = Some l) in E2. unfold imgs. rewrite E2. split; [reflexivity|]. exact (nth_error_In _ _ E1).
  Qed.
  Lemma row_facts t u : In t tabs -> In u t -> In (pair_of u) (w_scai P) /\ (forall f, In f (e_frags u) -> f < m_nf P) /\ e_ket u <= e_bra u < m_nroots P.
  Proof.
    intros Ht Hu. destruct (table_rows (w_lroots P) (w_nelec P) (w_scai P) t u) as [I F]; [rewrite w_len; apply w_admissible|apply w_nodup|rewrite w_len; exact Ht|exact Hu|]. rewrite w_len in F.
    split; [exact I|]. split; [exact F|]. unfold pair_of in I. apply w_pairs in I. tauto.
  Qed.
  Lemma images_ok t u : In t tabs -> In u (fst (find_unique_exc uroot true t)) -> NoDup (imgs u) /\
    forall p, In p (imgs u) -> fst p < m_nroots P /\ snd p < m_nroots P /\ alike uroot (e_frags u) p (e_bra u, e_ket u).
  Proof.
    intros Ht Hu. destruct (dict_at t u Ht Hu) as [_ I]. destruct (table_len _ _ _ t (w_admissible P) (w_nodup P) Ht) as (n & Hn).
    destruct (C55_images uroot true t n Hn (Hcf t Ht)) as (Inc & _ & Pm & Al). cbv zeta in *.
    assert (Nt : NoDup (map (fun r => (sort_z (map Z.of_nat (e_frags r)), up_to_swap true (e_bra r, e_ket r))) t)).
    { pose proof (tabs_nodup (m_nf P) (w_nelec P) (w_scai P) (w_admissible P) (w_nodup P) t Ht) as N.
      assert (G : forall l, incl l t -> NoDup l -> NoDup (map (fun r => (sort_z (map Z.of_nat (e_frags r)), up_to_swap true (e_bra r, e_ket r))) l)); [|apply G; [apply incl_refl|exact N]].
      induction l as [|r l IH]; intros Il Nl; cbn [map]; [constructor|]. inversion Nl as [|? ? Nr Nl']; subst. constructor; [|apply IH; auto; intros y Hy; apply Il; now right].
      intros C. apply in_map_iff in C as (r' & E & Ir'). injection E as E1 E2. apply Nr. assert (Q : r = r'); [|now subst].
      assert (J : In r t) by (apply Il; now left). assert (J' : In r' t) by (apply Il; now right). destruct (row_facts t r Ht J) as (_ & _ & L). destruct (row_facts t r' Ht J') as (_ & _ & L').
      apply (rows_inj (m_nf P) (w_nelec P) (w_scai P) t r r' (w_admissible P) (w_nodup P) Ht J J').
      - unfold up_to_swap in *. cbn [fst snd] in *. unfold pair_of. f_equal; lia.
      - assert (Z : Permutation (map Z.of_nat (e_frags r)) (map Z.of_nat (e_frags r'))) by (rewrite <- (sort_z_perm (map Z.of_nat (e_frags r))), <- (sort_z_perm (map Z.of_nat (e_frags r'))), E1; reflexivity).
        intros f. split; intros If; apply (in_map Z.of_nat) in If; [|symmetry in Z]; apply (Permutation_in _ Z) in If; apply in_map_iff in If as (g & Eg & Ig); apply Nat2Z.inj in Eg; now subst. }
    split.
    - apply Permutation_sym in Pm. apply (Permutation_NoDup Pm) in Nt. clear -Nt I. induction (snd (find_unique_exc uroot true t)) as [|e l IH]; [destruct I|]. cbn [flat_map] in Nt.
      apply NoDup_app_inv in Nt as (N1 & N2 & _). destruct I as [->|I]; [|now apply IH]. cbn [snd] in N1. now apply NoDup_map_inv in N1.
    - intros p Ip. assert (J : In (sort_z (map Z.of_nat (e_frags u)), up_to_swap true p) (map (fun r => (sort_z (map Z.of_nat (e_frags r)), up_to_swap true (e_bra r, e_ket r))) t)).
      { apply (Permutation_in _ Pm). apply in_flat_map. exists (key_of u, imgs u). split; [exact I|]. cbn [fst snd]. unfold key_of. cbn [fst snd]. apply (in_map (fun p => (sort_z (map Z.of_nat (e_frags u)), up_to_swap true p))). exact Ip. }
      apply in_map_iff in J as (r & E & Ir). injection E as E1 E2. destruct (row_facts t r Ht Ir) as (_ & _ & L). unfold up_to_swap in *. cbn [fst snd] in *. split; [lia|]. split; [lia|]. exact (Al (e_bra u) (e_ket u) (e_frags u) (imgs u) p I Ip).
  Qed.
End Images.

Section Contract.
  Context {K : star_ring}.
  Add Ring Kr3 : (sring K).
  Variables (P : model_space K) (half : K) (big nz : K -> bool) (pyset : list nat -> list nat) (ints : nat -> @fmats K) (ovlp : nat -> nat -> nat -> list (list K)) (hash : list Z -> Z).
  Variables (h1 : nat -> nat * nat -> nat * nat -> K) (h2 : nat * nat -> nat * nat -> nat * nat -> nat * nat -> K).
  Hypothesis Pp : proper P.
  Hypothesis Hex : forall f, f < m_nf P -> exact K (m_norb P) (m_vec P) (m_ne P) (m_nl P) f (ints f).
  Hypothesis Hg : gram P ovlp.
  Hypothesis Hset : set_like pyset.
  Hypothesis Hhalf : sadd half half = s1.
  Hypothesis Hnz : nz s0 = false.
  Hypothesis Hcf : forall t, In t (w_tables P) -> collision_free (w_uroot P) t.
  Hypothesis Hhash : forall t r r', In t (w_tables P) -> In r t -> In r' t -> hash (spman_words (w_uroot P) r) = hash (spman_words (w_uroot P) r') -> spman_words (w_uroot P) r = spman_words (w_uroot P) r'.
  Hypothesis Hpair : forall p q r u, h2 p q r u = h2 r u p q.
  Hypothesis Htr : forall p q r u, h2 p q r u = h2 q p u r.
  Let lroots := w_lroots P.
  Let uroot := w_uroot P.
  Let tabs := w_tables P.
  Let n := m_norb P.
  Let nf := m_nf P.
  Let cr := fun lbl fr s bra ket => crunch_ham half n ints (m_ur P) (w_nelec_rf P) h1 h2 bra ket lbl fr s.
  Let D := crunch_D n ints (m_ur P) (w_nelec_rf P) nz.
  Let ud := mask_exc_tables uroot true (fun _ => true) tabs.
  Let dict := snd ud.
  Let sm := spman_tables hash uroot (fst ud).
  Let im := imgs P.

  Lemma lr_ne : lroots <> [].
  Proof. intros E. pose proof (w_len P) as L. fold lroots in L. rewrite E in L. destruct Pp as ((H & _) & _). cbn in L. lia. Qed.
  Lemma lr_rect : Forall (fun row => length row = length (hd [] lroots)) lroots.
  Proof. unfold lroots. rewrite (w_hd P Pp). apply Forall_forall. intros row I. unfold w_lroots in I. apply in_map_iff in I as (f & <- & _). now rewrite map_length, seq_length. Qed.
  Lemma lr_col f r : f < nf -> r < m_nroots P -> nth f (column lroots r) 0 = m_nl P f (m_ur P f r).
  Proof. intros Hf Hr. unfold column. rewrite (nth_map_lt _ _ _ []) by (unfold lroots; now rewrite w_len). now apply w_at. Qed.
  Lemma lr_pos r f : r < length (hd [] lroots) -> f < length lroots -> 0 < nth f (column lroots r) 0.
  Proof. unfold lroots at 1 2. rewrite (w_hd P Pp), w_len. intros Hr Hf. rewrite lr_col by assumption. destruct Pp as (_ & _ & H & _). now apply H. Qed.
  Lemma lr_sort fr : pyset (spectators (length lroots) fr) = spectators (length lroots) fr.
  Proof. unfold lroots. rewrite w_len. apply (set_sorted P Pp pyset fr Hset). Qed.
  Lemma lr_shape f b k : f < length lroots -> b < length (hd [] lroots) -> k < length (hd [] lroots) -> shaped (ovlp f b k) (nth f (column lroots b) 0) (nth f (column lroots k) 0).
  Proof. unfold lroots at 1 2 3. rewrite (w_hd P Pp), w_len. intros Hf Hb Hk. rewrite !lr_col by assumption. now apply Hg. Qed.
  Lemma in_within r fr e : r < m_nroots P -> (forall f, In f fr -> f < nf) -> in_range (column lroots r) e -> within lroots r fr (zeroed lroots fr e).
  Proof.
    intros Hr Hf R f If. pose proof (Hf f If) as Lf. apply in_range_nth in R as [L R]. assert (Lc : length (column lroots r) = nf) by (unfold column, lroots; rewrite map_length; apply w_len).
    specialize (R f ltac:(lia)). rewrite lr_col in R by auto. pose proof (w_at P f r Lf Hr) as Q. fold lroots in Q. rewrite Q.
    unfold zeroed. rewrite (nth_map_lt _ _ _ 0) by (rewrite seq_length; unfold lroots; now rewrite w_len). rewrite seq_nth by (unfold lroots; now rewrite w_len). cbn [Nat.add].
    assert (E : existsb (Nat.eqb f) fr = true) by (apply existsb_exists; exists f; split; [exact If|apply Nat.eqb_refl]). rewrite E. exact R.
  Qed.
  Lemma value lbl t u e e' : nth_error tabs lbl = Some t -> In u t -> within lroots (e_bra u) (e_frags u) e -> within lroots (e_ket u) (e_frags u) e' ->
    let bra := (e_bra u, e) in let ket := (e_ket u, e') in
    exists v, cr lbl (e_frags u) (e_spin u) bra ket = Ok v /\
      fst v = gsum nf n (fun x => smul (hx K half h1 h2 x) (D lbl (e_frags u) (e_spin u) bra ket x)) /\ some0 (snd v) = gsum nf n (fun x => smul (sx K half x) (D lbl (e_frags u) (e_spin u) bra ket x)).
  Proof.
    intros Ht Hu R R' bra ket. destruct (row_facts P t u (nth_error_In _ _ Ht) Hu) as (_ & F & L). pose proof Pp as ((_ & H8) & _ & _ & Hfit & Hne).
    apply (ham_value K nf n (m_vec P) (m_ne P) (m_nl P) ints (m_ur P) (w_nelec_rf P) nz H8 Hne Hex Hfit Hnz (m_nroots P) (w_nelec P) lroots (fun r _ => eq_refl) (fun r _ => w_rf P r) (w_len P) (fun f r Hf Hr => w_at P f r Hf Hr)
      (w_scai P) (w_admissible P) (w_nodup P) (w_in P) half h1 h2 Hhalf Hpair Htr lbl t u); auto.
  Qed.
  Lemma sm_table t : In t (map (fun t => fst (find_unique_exc uroot true t)) tabs) ->
    Permutation (fst (find_unique_by (spman_fprints hash uroot t) t)) t /\ snd (find_unique_by (spman_fprints hash uroot t) t) = map (fun u => (key_of u, [(e_bra u, e_ket u)])) (fst (find_unique_by (spman_fprints hash uroot t) t)).
  Proof.
    intros It. apply in_map_iff in It as (t0 & <- & It). destruct (table_len _ _ _ t0 (w_admissible P) (w_nodup P) It) as (m & Hm). apply unique_by_distinct; [unfold spman_fprints; now rewrite map_length|].
    pose proof (unique_words uroot (fun _ => true) t0 m Hm) as N. rewrite keep_all in N. pose proof (uexc_incl uroot true t0) as Inc. unfold spman_fprints.
    assert (Hi : forall r r', In r t0 -> In r' t0 -> hash (words uroot r) = hash (words uroot r') -> words uroot r = words uroot r') by (intros r r' Ir Ir'; exact (Hhash t0 r r' It Ir Ir')).
    clear -N Inc Hi. induction (fst (find_unique_exc uroot true t0)) as [|r l IH]; [constructor|]. cbn [map] in *. inversion N as [|? ? N1 N2]; subst. constructor; [|apply IH; auto; intros y Hy; apply Inc; now right].
    intros C. apply in_map_iff in C as (r' & E & Ir'). apply N1. apply in_map_iff. exists r'. split; [|exact Ir']. apply Hi; auto; apply Inc; [now right|now left].
  Qed.
  Lemma sm_keys t u : In t (map (fun t => fst (find_unique_exc uroot true t)) tabs) -> In u t -> get_key (key_of u) (snd sm) = Some [(e_bra u, e_ket u)].
  Proof.
    intros It Iu. unfold sm, spman_tables, ud, tabs, uroot. cbn [snd]. rewrite (fst_ud P). fold uroot tabs.
    assert (E : flat_map snd (map (fun t => find_unique_by (spman_fprints hash uroot t) t) (map (fun t => fst (find_unique_exc uroot true t)) tabs)) =
      map (fun u => (key_of u, [(e_bra u, e_ket u)])) (flat_map (fun t => fst (find_unique_by (spman_fprints hash uroot t) t)) (map (fun t => fst (find_unique_exc uroot true t)) tabs))).
    { pose proof sm_table as S0. revert S0. generalize (map (fun t => fst (find_unique_exc uroot true t)) tabs). clear. intros L. induction L as [|a l IH]; intros S0; [reflexivity|]. cbn [map flat_map]. rewrite map_app, IH by (intros y Hy; apply S0; now right). f_equal. apply S0. now left. }
    rewrite E. apply get_key_in.
    - rewrite map_map. cbn [fst].
      assert (Pm : Permutation (flat_map (fun t => fst (find_unique_by (spman_fprints hash uroot t) t)) (map (fun t => fst (find_unique_exc uroot true t)) tabs)) (concat (map (fun t => fst (find_unique_exc uroot true t)) tabs))).
      { pose proof sm_table as S0. revert S0. generalize (map (fun t => fst (find_unique_exc uroot true t)) tabs). clear. intros L. induction L as [|a l IH]; intros S0; [reflexivity|]. cbn [flat_map concat]. apply Permutation_app; [apply S0; now left|apply IH; intros y Hy; apply S0; now right]. }
      apply (Permutation_map key_of) in Pm. apply Permutation_sym in Pm. apply (Permutation_NoDup Pm).
      destruct (C55_lookup (m_nf P) (w_nelec P) (w_scai P) uroot true (fun _ => true) (w_admissible P) (w_nodup P)) as [N _]. change (NoDup (map fst (snd (mask_exc_tables uroot true (fun _ => true) tabs)))) in N.
      unfold mask_exc_tables in N. cbn [snd] in N. rewrite flat_map_concat_map, map_map in N. rewrite concat_map in N |- *. rewrite !map_map in *.
      rewrite (map_ext _ (fun t => map key_of (fst (find_unique_exc uroot true t)))) in N; [exact N|]. intros a. now rewrite keep_all, uexc_fst.
    - apply (in_map (fun u => (key_of u, [(e_bra u, e_ket u)]))). apply in_flat_map. exists t. split; [exact It|]. apply (Permutation_in _ (Permutation_sym (proj1 (sm_table t It)))). exact Iu.
  Qed.

  Lemma gsum_pull {A} (g : tix -> K) (l : list A) (F : A -> tix -> K) : gsum nf n (fun x => smul (g x) (bsum l (fun a => F a x))) = bsum l (fun a => gsum nf n (fun x => smul (g x) (F a x))).
  Proof. rewrite <- gsum_bsum. apply gsum_ext. intros x. now rewrite bsum_mul_l. Qed.
  Definition coef (b : bool) : tix -> K := if b then hx K half h1 h2 else sx K half.
  Lemma contracted_shuffled (ss : nat -> K) : exists hs t0, make_ham_shuffled P ss half big pyset ints ovlp hash h1 h2 = Ok hs /\
    (do rf <- get_rootaddr_fragaddr (w_lroots P) ;; let ud := mask_exc_tables (w_uroot P) true (fun _ => true) (w_tables P) in
      crunch_all half big tix_tr pyset (w_lroots P) ovlp ss (fragK K (w_nelec_rf P)) (fst rf) (snd rf) (crunch_D (m_norb P) ints (m_ur P) (w_nelec_rf P) nz) (snd ud) (fst ud)) = Ok (add_transpose tix_tr t0) /\
    forall r e r' e', r < m_nroots P -> r' < m_nroots P -> in_range (dims_of lroots r) e -> in_range (dims_of lroots r') e' ->
      let A := address lroots r e in let B := address lroots r' e' in
      fst hs A B = sadd (gsum nf n (fun x => smul (coef true x) (t0 A B x))) (sconj (gsum nf n (fun x => smul (coef true x) (t0 B A x)))) /\
      snd hs A B = sadd (gsum nf n (fun x => smul (coef false x) (t0 A B x))) (gsum nf n (fun x => smul (coef false x) (t0 B A x))).
  Proof.
    destruct (rootaddr_fragaddr_spec lroots (length (hd [] lroots)) lr_ne lr_rect) as (ra & fa & Eg & _).
    unfold make_ham_shuffled. fold lroots. rewrite Eg. cbn [bind fst snd]. fold uroot tabs. fold ud. fold sm dict. fold n. fold D. change (fun lbl fr s bra ket => crunch_ham half n ints (m_ur P) (w_nelec_rf P) h1 h2 bra ket lbl fr s) with cr.
    set (fs := fragK K (w_nelec_rf P)).
    assert (Eu : fst ud = map (fun t => fst (find_unique_exc uroot true t)) tabs) by apply fst_ud.
    assert (Es : fst sm = map (fun t => fst (find_unique_by (spman_fprints hash uroot t) t)) (fst ud)) by (unfold sm, spman_tables; cbn [fst]; now rewrite map_map).
    assert (Hd : forall l u, In l (fst ud) -> In u l -> get_key (key_of u) dict = Some (im u)).
    { intros l u Hl Hu. rewrite Eu in Hl. apply in_map_iff in Hl as (t & <- & Ht). exact (proj1 (dict_at P t u Ht Hu)). }
    assert (Hs : forall l u, In l (fst sm) -> In u l -> exists l', In l' (fst ud) /\ In u l').
    { intros l u Hl Hu. rewrite Es in Hl. apply in_map_iff in Hl as (l' & <- & Hl'). exists l'. split; [exact Hl'|]. rewrite Eu in Hl'. exact (Permutation_in _ (proj1 (sm_table l' Hl')) Hu). }
    destruct (loop_tables_sum half big pyset lroots ovlp ss fs D ra fa dict im (fst ud) 0 (fun _ _ _ => s0) Hd) as (t0 & E0 & V0).
    unfold crunch_all. rewrite E0. cbn [bind].
    assert (Hu : forall k l u, nth_error (fst ud) k = Some l -> In u l -> exists t, nth_error tabs k = Some t /\ In u t /\ In u (fst (find_unique_exc uroot true t))).
    { intros k l u Hk Hu. rewrite Eu, nth_error_map in Hk. destruct (nth_error tabs k) as [t|] eqn:Et; [|discriminate]. cbn [option_map] in Hk. assert (Q : l = fst (find_unique_exc uroot true t)) by congruence. clear Hk. subst l. exists t. split; [reflexivity|]. split; [exact (uexc_incl _ _ _ _ Hu)|exact Hu]. }
    assert (Hal : forall k l u p, nth_error (fst ud) k = Some l -> In u l -> In p (im u) -> fst p < length (hd [] lroots) /\ snd p < length (hd [] lroots) /\
      (forall f, In f (e_frags u) -> nth f (column lroots (e_bra u)) 0 = nth f (column lroots (fst p)) 0) /\ (forall f, In f (e_frags u) -> nth f (column lroots (e_ket u)) 0 = nth f (column lroots (snd p)) 0)).
    { intros k l u p Hk Il Ip. destruct (Hu k l u Hk Il) as (t & Et & It & Iu). pose proof (nth_error_In _ _ Et) as Ht. destruct (row_facts P t u Ht It) as (_ & F & L). destruct (proj2 (images_ok P Hcf t u Ht Iu) p Ip) as (L1 & L2 & Al).
      unfold lroots at 1 2. rewrite (w_hd P Pp). split; [exact L1|]. split; [exact L2|].
      clear - F L L1 L2 Al Pp nf.
      split; intros f If; destruct (Al f If) as [A1 A2]; cbn [fst snd] in A1, A2; unfold w_uroot in A1, A2; rewrite !Nat2Z.id in A1, A2; apply Nat2Z.inj in A1, A2; pose proof (F f If) as Ff.
      - rewrite (lr_col f (e_bra u)), (lr_col f (fst p)) by (exact Ff || lia). now rewrite A1.
      - rewrite (lr_col f (e_ket u)), (lr_col f (snd p)) by (exact Ff || lia). now rewrite A2. }
    destruct (tables_sim half big pyset lroots ovlp ss fs ra fa cr lr_ne lr_rect Eg lr_pos (proj1 Hset) lr_sort lr_shape dict (snd sm) (fst sm) 0 (fun _ _ => s0, fun _ _ => s0) (fun _ _ _ => s0)) as (hs & E1 & t1 & E2 & Sm).
    { intros k l u Hk Hul. cbn [Nat.add]. rewrite Es, nth_error_map in Hk. destruct (nth_error (fst ud) k) as [l'|] eqn:El; [|discriminate]. cbn [option_map] in Hk. assert (Q : l = fst (find_unique_by (spman_fprints hash uroot l') l')) by congruence. clear Hk. subst l.
      pose proof (nth_error_In _ _ El) as Il'. assert (Il2 := Il'). rewrite Eu in Il2. apply (Permutation_in _ (proj1 (sm_table l' Il2))) in Hul. destruct (Hu k l' u El Hul) as (t & Et & It & Iu). pose proof (nth_error_In _ _ Et) as Ht.
      destruct (row_facts P t u Ht It) as (_ & F & L). exists (im u). split; [exact (Hd l' u Il' Hul)|]. split; [exact (sm_keys l' u Il2 Hul)|].
      unfold row_ok. unfold lroots at 1 2 3. rewrite w_len, (w_hd P Pp). split; [exact F|]. split; [lia|]. split; [lia|]. split; [exact (proj1 (images_ok P Hcf t u Ht Iu))|]. split; [|split; [|split]].
      - intros p Ip. pose proof (Hal k l' u p El Hul Ip) as Q. unfold lroots in Q at 1 2. rewrite (w_hd P Pp) in Q. unfold lroots. rewrite (w_hd P Pp). exact Q.
      - assert (F8 : Forall (fun f => f < 8) (e_frags u)) by (apply Forall_forall; intros f If; apply F in If; destruct Pp as ((_ & ?) & _); lia). exact (asc_sorted _ F8 _ (proj2 Hset _ F8)).
      - eapply ninv_same. exact (row_shape (m_nf P) (w_nelec P) (w_scai P) (w_admissible P) (w_nodup P) k t u Et It).
      - intros m m' R R'. destruct (value k t u (zeroed lroots (e_frags u) m) (zeroed lroots (e_frags u) m') Et It) as (v & Ev & _); [apply in_within; (assumption || lia)..|]. exists v. exact Ev. }
    { intros b k. auto. }
    unfold ham_all. rewrite E1. cbn [bind]. exists (ham_transpose hs), t0. split; [reflexivity|]. split; [reflexivity|].
    destruct (loop_tables_sum half big pyset lroots ovlp ss fs (Dval cr) ra fa dict im (fst sm) 0 (fun _ _ _ => s0)) as (t2 & E3 & V2).
    { intros l u Hl Hul. destruct (Hs l u Hl Hul) as (l' & I1 & I2). exact (Hd l' u I1 I2). }
    assert (t1 = t2) by congruence. subst t2.
    assert (W : forall r e r' e' b, r < m_nroots P -> r' < m_nroots P -> in_range (dims_of lroots r) e -> in_range (dims_of lroots r') e' ->
      t1 (address lroots r e) (address lroots r' e') b = gsum nf n (fun x => smul (coef b x) (t0 (address lroots r e) (address lroots r' e') x))).
    { intros r e r' e' b Hr Hr' R R'. set (A := address lroots r e). set (B := address lroots r' e').
      transitivity (gsum nf n (fun x => smul (coef b x) (bsum (combine (seq 0 (length (fst ud))) (fst ud)) (fun lt => bsum (snd lt) (fun u => bsum (im u) (fun p =>
        contrib half big pyset lroots ovlp ss fs ra fa D (fst lt) (e_frags u) (e_spin u) (e_bra u) (e_ket u) p A B x)))))).
      2:{ apply gsum_ext. intros x. f_equal. rewrite V0. symmetry. apply (Radd_0_l (sring K)). }
      rewrite V2, (Radd_0_l (sring K)). rewrite (gsum_pull (coef b)). rewrite Es, map_length, bsum_combine_map. cbn [fst snd]. apply bsum_ext. intros [lbl l] Hl. cbn [fst snd].
      apply (in_combine_seq lroots) in Hl as [_ Hl]. rewrite Nat.sub_0_r in Hl. pose proof (nth_error_In _ _ Hl) as Il. assert (Il2 := Il). rewrite Eu in Il2. rewrite (bsum_perm K _ _ _ (proj1 (sm_table l Il2))).
      rewrite gsum_pull. apply bsum_ext. intros u Iu. rewrite gsum_pull. apply bsum_ext. intros [b1 k1] Ip.
      destruct (Hal lbl l u (b1, k1) Hl Iu Ip) as (L1 & L2 & A1 & A2). cbn [fst snd] in L1, L2, A1, A2. destruct (Hu lbl l u Hl Iu) as (t & Et & It & _). destruct (row_facts P t u (nth_error_In _ _ Et) It) as (_ & F & L).
      assert (Hr2 : r < length (hd [] lroots) /\ r' < length (hd [] lroots) /\ e_bra u < length (hd [] lroots) /\ e_ket u < length (hd [] lroots)) by (unfold lroots; rewrite (w_hd P Pp); lia). destruct Hr2 as (Q1 & Q2 & Q3 & Q4).
      assert (F' : forall f, In f (e_frags u) -> f < length lroots) by (unfold lroots; rewrite w_len; exact F).
      unfold A, B. rewrite (contrib_value half big pyset lroots ovlp ss fs ra fa (Dval cr) lr_ne lr_rect Eg lr_pos (proj1 Hset) lr_sort lr_shape lbl (e_frags u) (e_spin u) (e_bra u) (e_ket u) b1 k1 r e r' e' b F' Q3 Q4 L1 L2 A1 A2 Q1 Q2 R R').
      transitivity (gsum nf n (fun x => smul (coef b x) (if (b1 =? r) && (k1 =? r') then smul (D lbl (e_frags u) (e_spin u) (e_bra u, zeroed lroots (e_frags u) e) (e_ket u, zeroed lroots (e_frags u) e') x) (listed half big pyset lroots ovlp ss fs b1 k1 (e_frags u) e e') else s0))).
      2:{ apply gsum_ext. intros x. f_equal. symmetry. exact (contrib_value half big pyset lroots ovlp ss fs ra fa D lr_ne lr_rect Eg lr_pos (proj1 Hset) lr_sort lr_shape lbl (e_frags u) (e_spin u) (e_bra u) (e_ket u) b1 k1 r e r' e' x F' Q3 Q4 L1 L2 A1 A2 Q1 Q2 R R'). }
      destruct (Nat.eqb_spec b1 r) as [->|]; [|cbn [andb]; symmetry; apply gsum_0; intros; ring]. destruct (Nat.eqb_spec k1 r') as [->|]; [|cbn [andb]; symmetry; apply gsum_0; intros; ring]. cbn [andb].
      assert (G : forall q q0 e0, q < m_nroots P -> q0 < m_nroots P -> in_range (column lroots q) e0 -> (forall f, In f (e_frags u) -> nth f (column lroots q0) 0 = nth f (column lroots q) 0) -> within lroots q0 (e_frags u) (zeroed lroots (e_frags u) e0)).
      { intros q q0 e0 Hq Hq0 Rq Eq f If. pose proof (in_within q (e_frags u) e0 Hq F Rq f If) as Z. specialize (Eq f If). rewrite (lr_col f q0 (F f If) Hq0), (lr_col f q (F f If) Hq) in Eq. unfold lroots in Z |- *. rewrite (w_at P f q (F f If) Hq) in Z. rewrite (w_at P f q0 (F f If) Hq0). rewrite Eq. exact Z. }
      destruct (value lbl t u (zeroed lroots (e_frags u) e) (zeroed lroots (e_frags u) e') Et It) as (v & Ev & E4 & E5); [apply (G r); (assumption || lia)|apply (G r'); (assumption || lia)|].
      unfold Dval. rewrite Ev. destruct b; cbn [coef]; [rewrite E4|rewrite E5]; (rewrite gsum_mul_r; apply gsum_ext; intros x; ring). }
    intros r e r' e' Hr Hr' R R'. set (A := address lroots r e). set (B := address lroots r' e'). unfold ham_transpose. cbn [fst snd]. destruct (Sm A B) as [M1 M2]. destruct (Sm B A) as [M3 M4]. rewrite M1, M2, M3, M4. unfold A, B. rewrite !W by assumption. split; reflexivity.
  Qed.
  Lemma contracted : exists hs t0, make_ham P half big pyset ints ovlp hash h1 h2 = Ok hs /\ make_stdm P half big nz pyset ints ovlp = Ok (add_transpose tix_tr t0) /\
    forall r e r' e', r < m_nroots P -> r' < m_nroots P -> in_range (dims_of lroots r) e -> in_range (dims_of lroots r') e' ->
      let A := address lroots r e in let B := address lroots r' e' in
      fst hs A B = sadd (gsum nf n (fun x => smul (coef true x) (t0 A B x))) (sconj (gsum nf n (fun x => smul (coef true x) (t0 B A x)))) /\
      snd hs A B = sadd (gsum nf n (fun x => smul (coef false x) (t0 A B x))) (gsum nf n (fun x => smul (coef false x) (t0 B A x))).
  Proof. exact (contracted_shuffled (spinK K (w_nelec P))). Qed.
End Contract.
