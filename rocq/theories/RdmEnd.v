(** The loops of LRRDM: the sum over all pairs of product states of conjugate coefficient, coefficient and element of the array of
    transition density matrices that LSTDM builds. *)
From Coq Require Import List ZArith Bool Arith Lia Permutation Ring.
From Verif Require Import Base BaseFacts Star AddrModel AddrFacts AddrSpec AddrProofs FockSpec LasElem SignsModel ExcModel UexcModel PropUexc StdmModel StdmFacts StdmSum PropStdm.
From Verif Require Import CrunchModel CrunchSpec CrunchPair CrunchEnd PropCrunch HamModel HamLoop HamEnd RdmModel RdmSums RdmFdm RdmPart RdmLin RdmCrunch.
Import ListNotations.
Local Open Scope nat_scope.

(** kernel of LRRDM, rdm.py:81-102, with the tables that the constructor builds; [shuffle] is the attribute spin_shuffle, which is overwritten in
    the spinless mapping (lines 700-701) *)
Definition make_rdm_shuffled {K : star_ring} (P : model_space K) (shuffle : nat -> K) (half : K) (big : K -> bool) (pyset : list nat -> list nat) (ints : nat -> @fmats K) (ovlp : nat -> nat -> nat -> list (list K))
    (si_bra si_ket : list (list K)) (hermi : bool) : res rdms :=
  let ud := mask_exc_tables (w_uroot P) true (fun _ => true) (w_tables P) in
  rdm_all half big pyset (w_lroots P) ovlp shuffle (fragK K (w_nelec_rf P)) (m_norb P) ints (m_ur P) (w_nelec_rf P) (snd ud) si_bra si_ket hermi (fst ud).
Definition make_rdm {K : star_ring} (P : model_space K) (half : K) (big : K -> bool) (pyset : list nat -> list nat) (ints : nat -> @fmats K) (ovlp : nat -> nat -> nat -> list (list K))
    (si_bra si_ket : list (list K)) (hermi : bool) : res rdms := make_rdm_shuffled P (spinK K (w_nelec P)) half big pyset ints ovlp si_bra si_ket hermi.

Lemma idxs_range dims : forall g, In g (idxs dims) -> in_range dims g.
Proof.
  induction dims as [|d ds IH]; intros g; cbn [idxs]; [intros [<-|[]]; constructor|]. intros I. apply in_flat_map in I as (v & Iv & I). apply in_map_iff in I as (r & <- & I). apply in_seq in Iv. constructor; [lia|now apply IH].
Qed.

Section Local.
  Context {K : star_ring}.
  Variables (norb : nat -> nat) (ints : nat -> @fmats K) (uroot : nat -> nat -> nat) (nelec_rf : nat -> list nat) (nz : K -> bool).
  Lemma crunch_local lbl fr sp b k e e' a a' : (forall f, In f fr -> nth f e 0 = nth f a 0) -> (forall f, In f fr -> nth f e' 0 = nth f a' 0) ->
    crunch norb ints uroot nelec_rf nz lbl fr sp (b, e) (k, e') = crunch norb ints uroot nelec_rf nz lbl fr sp (b, a) (k, a').
  Proof.
    intros H H'. assert (L : forall f, In f fr -> loc uroot f (b, e) = loc uroot f (b, a)) by (intros f If; unfold loc; cbn [fst snd]; now rewrite H).
    assert (L' : forall f, In f fr -> loc uroot f (k, e') = loc uroot f (k, a')) by (intros f If; unfold loc; cbn [fst snd]; now rewrite H').
    destruct lbl as [|[|[|[|[|[|[|lbl]]]]]]]; destruct fr as [|f1 [|f2 [|f3 [|f4 [|f5 fr]]]]]; destruct sp as [s|]; cbn [crunch]; try reflexivity;
      unfold crunch_1d, crunch_2d, crunch_1c, crunch_1c1d, crunch_1s, crunch_1s1c, crunch_2c, get_1_dm1, get_1_dm2, get_1_h, get_1_p, get_1_hh, get_1_pp, get_1_phh, get_1_pph, get_1_sm, get_1_sp, des;
      cbn [fst];
      (try rewrite (L f1) by (cbn; auto)); (try rewrite (L' f1) by (cbn; auto)); (try rewrite (L f2) by (cbn; auto)); (try rewrite (L' f2) by (cbn; auto));
      (try rewrite (L f3) by (cbn; auto)); (try rewrite (L' f3) by (cbn; auto)); (try rewrite (L f4) by (cbn; auto)); (try rewrite (L' f4) by (cbn; auto)); reflexivity.
  Qed.
End Local.

(** every cruncher is a sum over the local states of its fragments, in some order *)
Lemma crunch_sum {K : star_ring} lroots norb (ints : nat -> @fmats K) uroot nelec_rf nz bra ket nf nelec lbl row : length lroots = nf -> shape nf nelec lbl row ->
  (forall f, f < length lroots -> 0 < nth f (column lroots bra) 0) -> (forall f, f < length lroots -> 0 < nth f (column lroots ket) 0) ->
  exists inv, (forall f, In f inv <-> In f (e_frags row)) /\ forall fdm fd, fdm inv (e_frags row) = Ok fd ->
    all_ok lroots bra ket (rev (inv_unique inv)) _ (crunch norb ints uroot nelec_rf nz lbl (e_frags row) (e_spin row)) ->
    exists d, rdm_crunch lroots norb ints uroot nelec_rf fdm bra ket lbl (e_frags row) (e_spin row) = Ok d /\
      forall x, d x = ssum (column lroots bra) (column lroots ket) (length lroots) (rev (inv_unique inv)) fd (fun e e' => crunch_D norb ints uroot nelec_rf nz lbl (e_frags row) (e_spin row) (bra, e) (ket, e') x).
Proof.
  intros L S Hb Hk.
  assert (U2 : forall i j, i <> j -> rev (inv_unique [i; j]) = [j; i]) by (intros i j N; unfold inv_unique; cbn [inv_unique_from existsb]; rewrite (proj2 (Nat.eqb_neq j i)) by congruence; reflexivity).
  assert (U3 : forall i j k, i <> j -> i <> k -> j <> k -> rev (inv_unique [i; j; k]) = [k; j; i]).
  { intros i j k N1 N2 N3. unfold inv_unique. cbn [inv_unique_from existsb]. rewrite (proj2 (Nat.eqb_neq j i)) by congruence. cbn [Datatypes.orb inv_unique_from existsb]. rewrite (proj2 (Nat.eqb_neq k j)), (proj2 (Nat.eqb_neq k i)) by congruence. reflexivity. }
  destruct S as [b k i Hi _|b k i j Hi Hj N _|b k i j s Hi Hj N Hs _|b k i j f s Hi Hj Hf N N1 N2 Hs _|b k i j Hi Hj N _|b k i j l s Hi Hj Hl Nd Hs _|b k i j l m s Hi Hj Hl Hm N1 N2 N3 N4 Hs _]; subst nf; cbn [e_frags e_spin].
  - exists [i]. split; [tauto|]. intros fdm fd Ef Ho. apply (sum_1d lroots norb ints uroot nelec_rf nz bra ket Hb Hk fdm fd i Hi Ef Ho).
  - exists [i; j]. split; [tauto|]. intros fdm fd Ef Ho. rewrite U2 in * by exact N. apply (sum_2d lroots norb ints uroot nelec_rf nz bra ket Hb Hk fdm fd i j Hi Hj N Ef Ho).
  - exists [i; j]. split; [tauto|]. intros fdm fd Ef Ho. rewrite U2 in * by exact N. apply (sum_1c lroots norb ints uroot nelec_rf nz bra ket Hb Hk fdm fd i j s Hi Hj N Ef Ho).
  - exists [i; j; f]. split; [tauto|]. intros fdm fd Ef Ho. rewrite U3 in * by congruence. apply (sum_1c1d lroots norb ints uroot nelec_rf nz bra ket Hb Hk fdm fd i j f s Hi Hj Hf N (not_eq_sym N1) (not_eq_sym N2) Ef Ho).
  - exists [i; j]. split; [tauto|]. intros fdm fd Ef Ho. rewrite U2 in * by exact N. apply (sum_1s lroots norb ints uroot nelec_rf nz bra ket Hb Hk fdm fd i j Hi Hj N Ef Ho).
  - assert (D : i <> j /\ i <> l /\ j <> l). { apply NoDup_cons_iff in Nd as [M1 Nd]. apply NoDup_cons_iff in Nd as [M2 _]. cbn in M1, M2. repeat split; intros ->; tauto. } destruct D as (D1 & D2 & D3).
    exists [i; j; l]. split; [tauto|]. intros fdm fd Ef Ho. rewrite U3 in * by congruence. apply (sum_1s1c lroots norb ints uroot nelec_rf nz bra ket Hb Hk fdm fd i j l s Hi Hj Hl D1 D2 D3 Ef Ho).
  - exists [i; l; m; j]. split; [cbn; tauto|]. intros fdm fd Ef Ho. apply (sum_2c lroots norb ints uroot nelec_rf nz bra ket Hb Hk fdm fd i j l m s Hi Hj Hl Hm N1 N2 N3 N4 Ef Ho).
Qed.

Section End_.
  Context {K : star_ring}.
  Add Ring Kring : (sring K).
  Variables (P : model_space K) (half : K) (big nz : K -> bool) (pyset : list nat -> list nat) (ints : nat -> @fmats K) (ovlp : nat -> nat -> nat -> list (list K)).
  Variable shuf : nat -> K.
  Hypothesis Pp : proper P.
  Hypothesis Hex : forall f, f < m_nf P -> exact K (m_norb P) (m_vec P) (m_ne P) (m_nl P) f (ints f).
  Hypothesis Hg : gram P ovlp.
  Hypothesis Hset : set_like pyset.
  Hypothesis Hnz : nz s0 = false.
  Hypothesis Hcf : forall t, In t (w_tables P) -> collision_free (w_uroot P) t.
  Let lroots := w_lroots P.
  Let n := length lroots.
  Let nroots := length (hd [] lroots).
  Let col r := column lroots r.
  Let D := crunch_D (m_norb P) ints (m_ur P) (w_nelec_rf P) nz.
  Let ud := mask_exc_tables (w_uroot P) true (fun _ => true) (w_tables P).
  Notation lstd := (listed half big pyset lroots ovlp shuf (fragK K (w_nelec_rf P))).
  Lemma e_n : n = m_nf P.
  Proof. apply w_len. Qed.
  Lemma e_nroots : nroots = m_nroots P.
  Proof. apply (w_hd P Pp). Qed.
  Lemma e_col f r : f < n -> r < nroots -> nth f (col r) 0 = m_nl P f (m_ur P f r).
  Proof. intros Hf Hr. rewrite e_n in Hf. rewrite e_nroots in Hr. unfold col, column. rewrite (nth_map_lt _ _ _ []) by (unfold lroots; now rewrite w_len). now apply w_at. Qed.
  Lemma e_pos r f : r < nroots -> f < n -> 0 < nth f (col r) 0.
  Proof. intros Hr Hf. rewrite e_col by assumption. rewrite e_n in Hf. rewrite e_nroots in Hr. destruct Pp as (_ & _ & H & _). now apply H. Qed.
  Lemma e_ov f b k : f < n -> b < nroots -> k < nroots -> shaped (ovlp f b k) (nth f (col b) 0) (nth f (col k) 0).
  Proof. intros Hf Hb Hk. rewrite !e_col by assumption. rewrite e_n in Hf. rewrite e_nroots in Hb, Hk. now apply Hg. Qed.
  Lemma e_py l l' : (forall f, In f l -> f < n) -> (forall f, In f l <-> In f l') -> pyset l = pyset l'.
  Proof. intros H E. apply (set_perm P Pp pyset l l' Hset); [|exact E]. intros f If. rewrite <- e_n. now apply H. Qed.

  Section Row.
    Variables (sb sk : list (list K)).
    Hypothesis Wb : wide lroots sb.
    Hypothesis Wk : wide lroots sk.
    Variables (lbl : nat) (t : list erow) (u : erow).
    Hypothesis Ht : nth_error (w_tables P) lbl = Some t.
    Hypothesis Hu : In u (fst (find_unique_exc (w_uroot P) true t)).
    Notation fr := (e_frags u).
    Lemma u_row : In u t.
    Proof. exact (uexc_incl _ _ _ _ Hu). Qed.
    Lemma t_tab : In t (w_tables P).
    Proof. exact (nth_error_In _ _ Ht). Qed.
    Lemma u_bra : e_bra u < nroots /\ e_ket u < nroots.
    Proof. destruct (row_facts P t u t_tab u_row) as (_ & _ & H). rewrite e_nroots. lia. Qed.
    Lemma u_fr f : In f fr -> f < n.
    Proof. destruct (row_facts P t u t_tab u_row) as (_ & H & _). rewrite e_n. apply H. Qed.
    Lemma u_img p : In p (imgs P u) -> fst p < nroots /\ snd p < nroots /\ (forall f, In f fr -> nth f (col (e_bra u)) 0 = nth f (col (fst p)) 0) /\ (forall f, In f fr -> nth f (col (e_ket u)) 0 = nth f (col (snd p)) 0).
    Proof.
      intros Ip. destruct (images_ok P Hcf t u t_tab Hu) as [_ H]. destruct (H p Ip) as (H1 & H2 & A). rewrite <- e_nroots in H1, H2. destruct u_bra as [B1 B2]. split; [exact H1|]. split; [exact H2|].
      assert (G : forall r r' f, In f fr -> r < nroots -> r' < nroots -> w_uroot P (Z.of_nat r') (Z.of_nat f) = w_uroot P (Z.of_nat r) (Z.of_nat f) -> nth f (col r) 0 = nth f (col r') 0).
      { intros r r' f If Q Q' E. rewrite (e_col f r (u_fr f If) Q), (e_col f r' (u_fr f If) Q'). unfold w_uroot in E. rewrite (Nat2Z.id f), (Nat2Z.id r), (Nat2Z.id r') in E. apply Nat2Z.inj in E. rewrite E. reflexivity. }
      split; intros f If; destruct (A f If) as [A1 A2]; [exact (G _ _ f If B1 H1 A1)|exact (G _ _ f If B2 H2 A2)].
    Qed.
    (** what one row adds for one SI root *)
    Lemma row_rdm root : root < length sb -> root < length sk ->
      exists d, rdm_crunch lroots (m_norb P) ints (m_ur P) (w_nelec_rf P) (get_fdm half big pyset lroots ovlp shuf (fragK K (w_nelec_rf P)) (snd ud) sb sk root (e_bra u) (e_ket u)) (e_bra u) (e_ket u) lbl fr (e_spin u) = Ok d /\
        forall x, d x = bsum (imgs P u) (fun p => bsum (idxs (col (fst p))) (fun g => bsum (idxs (col (snd p))) (fun g' =>
          smul (smul (sconj (coeff lroots sb root (fst p) g)) (coeff lroots sk root (snd p) g')) (smul (D lbl fr (e_spin u) (e_bra u, zeroed lroots fr g) (e_ket u, zeroed lroots fr g') x) (lstd (fst p) (snd p) fr g g'))))).
    Proof.
      intros Hr Hr'. assert (Lb : 0 < length sb) by lia. assert (Lk : 0 < length sk) by lia. destruct u_bra as [B1 B2].
      pose proof (row_shape (m_nf P) (w_nelec P) (w_scai P) (w_admissible P) (w_nodup P) lbl t u Ht u_row) as S.
      destruct (crunch_sum lroots (m_norb P) ints (m_ur P) (w_nelec_rf P) nz (e_bra u) (e_ket u) (m_nf P) (w_nelec P) lbl u (w_len P) S (fun f Hf => e_pos _ f B1 Hf) (fun f Hf => e_pos _ f B2 Hf)) as (inv & Hinv & Hsum).
      destruct (dict_at P t u t_tab Hu) as [Hkey _].
      destruct (get_fdm_ok half big pyset lroots ovlp shuf (fragK K (w_nelec_rf P)) e_pos (proj1 Hset) e_py e_ov sb sk Wb Wk Lb Lk (snd ud) (e_bra u) (e_ket u) fr inv (imgs P u) u_fr Hinv Hkey u_img root Hr Hr') as (fd & Ef & Vf).
      destruct (Hsum _ fd Ef) as (d & Ed & Vd).
      { intros e e' _ _ R. apply (C65_no_exception K P nz ints Pp Hex Hnz lbl t u e e' Ht u_row). intros f If.
        destruct (R f) as [R1 R2]; [apply (proj1 (in_rev _ _)), unique_in, Hinv; exact If|]. change (column lroots) with col in R1, R2. rewrite e_col in R1, R2 by (auto using u_fr). auto. }
      exists d. split; [exact Ed|]. intros x. rewrite Vd. etransitivity; [|apply (row_sum half big pyset lroots ovlp shuf (fragK K (w_nelec_rf P)) sb sk Lb Lk (e_bra u) (e_ket u) fr inv (imgs P u) B1 B2 u_fr Hinv u_img root
        (fun e e' => D lbl fr (e_spin u) (e_bra u, e) (e_ket u, e') x) Hr Hr')].
      - unfold ssum. apply tsum_ext.
        + intros f If. rewrite repeat_length. apply u_fr, Hinv. apply in_rev in If. exact (proj1 (unique_in _ _) If).
        + intros f If. rewrite repeat_length. apply u_fr, Hinv. apply in_rev in If. exact (proj1 (unique_in _ _) If).
        + apply NoDup_rev, unique_nodup.
        + intros e e' _ _ R R' _ _. f_equal. apply Vf; intros f If; [apply R|apply R']; apply (proj1 (in_rev _ _)), unique_in, Hinv; exact If.
      - intros e e' a a' H H'. unfold D, crunch_D. rewrite (crunch_local (m_norb P) ints (m_ur P) (w_nelec_rf P) nz lbl fr (e_spin u) (e_bra u) (e_ket u) e e' a a' H H'). reflexivity.
    Qed.
  End Row.

  (** ** sums over pairs of states *)
  Definition states : list (nat * list nat) := flat_map (fun r => map (fun g => (r, g)) (idxs (column (w_lroots P) r))) (seq 0 (length (hd [] (w_lroots P)))).
  Notation adr a := (address lroots (fst a) (snd a)).
  Notation cof si root a := (coeff lroots si root (fst a) (snd a)).
  Definition lsum (sb sk : list (list K)) (root : nat) (F : nat -> nat -> K) : K :=
    bsum states (fun a => bsum states (fun b => smul (smul (sconj (coeff (w_lroots P) sb root (fst a) (snd a))) (coeff (w_lroots P) sk root (fst b) (snd b))) (F (address (w_lroots P) (fst a) (snd a)) (address (w_lroots P) (fst b) (snd b))))).
  Lemma states_in a : In a states -> fst a < nroots /\ in_range (col (fst a)) (snd a).
  Proof. intros I. apply in_flat_map in I as (r & Ir & I). apply in_map_iff in I as (g & <- & Ig). apply in_seq in Ir. cbn [fst snd]. split; [exact (proj2 Ir)|exact (idxs_range _ _ Ig)]. Qed.
  Lemma pick_sum r (F : nat * list nat -> K) : r < nroots -> bsum (idxs (col r)) (fun g => F (r, g)) = bsum states (fun a => if r =? fst a then F a else s0).
  Proof.
    intros Hr. unfold states. rewrite bsum_flat_map. symmetry. rewrite (bsum_single K (seq 0 nroots) _ r).
    - rewrite bsum_map. apply bsum_ext. intros g _. cbn [fst]. now rewrite Nat.eqb_refl.
    - apply seq_NoDup.
    - apply in_seq. lia.
    - intros r' _ N. rewrite bsum_map. apply bsum_0. intros g _. cbn [fst]. rewrite (proj2 (Nat.eqb_neq r r')) by auto. reflexivity.
  Qed.
  Lemma lsum_ext sb sk root F G : (forall a b, In a states -> In b states -> F (adr a) (adr b) = G (adr a) (adr b)) -> lsum sb sk root F = lsum sb sk root G.
  Proof. intros H. unfold lsum. apply bsum_ext. intros a Ia. apply bsum_ext. intros b Ib. f_equal. now apply H. Qed.
  Lemma lsum_add sb sk root F G : lsum sb sk root (fun A B => sadd (F A B) (G A B)) = sadd (lsum sb sk root F) (lsum sb sk root G).
  Proof. unfold lsum. rewrite <- bsum_add. apply bsum_ext. intros a _. rewrite <- bsum_add. apply bsum_ext. intros b _. ring. Qed.
  Lemma lsum_bsum {A} sb sk root (l : list A) (F : A -> nat -> nat -> K) : lsum sb sk root (fun a b => bsum l (fun p => F p a b)) = bsum l (fun p => lsum sb sk root (F p)).
  Proof.
    unfold lsum. symmetry. rewrite bsum_swap. apply bsum_ext. intros a _. rewrite bsum_swap. apply bsum_ext. intros b _. symmetry. apply bsum_mul_l.
  Qed.
  Lemma lsum_zero sb sk root : lsum sb sk root (fun _ _ => s0) = s0.
  Proof. unfold lsum. apply bsum_0. intros a _. apply bsum_0. intros b _. ring. Qed.
  Lemma lsum_conj sb sk root F : sconj (lsum sk sb root F) = lsum sb sk root (fun A B => sconj (F B A)).
  Proof.
    unfold lsum. rewrite bsum_conj. transitivity (bsum states (fun a => bsum states (fun b => sconj (smul (smul (sconj (cof sk root a)) (cof sb root b)) (F (adr a) (adr b)))))); [apply bsum_ext; intros a _; apply bsum_conj|].
    rewrite bsum_swap. apply bsum_ext. intros a _. apply bsum_ext. intros b _. fold lroots. rewrite !sconj_mul, sconj_inv. ring.
  Qed.

  Variables (ra : list nat) (fa : list (list nat)).
  Hypothesis Hget : get_rootaddr_fragaddr lroots = Ok (ra, fa).
  Notation ctr := (contrib half big pyset lroots ovlp shuf (fragK K (w_nelec_rf P)) ra fa D).
  Lemma e_ne : lroots <> [].
  Proof. intros E. pose proof (w_len P) as L. fold lroots in L. rewrite E in L. destruct Pp as ((H & _) & _). cbn in L. lia. Qed.
  Lemma e_rect : Forall (fun row => length row = nroots) lroots.
  Proof. rewrite e_nroots. apply Forall_forall. intros row I. unfold lroots, w_lroots in I. apply in_map_iff in I as (f & <- & _). now rewrite map_length, seq_length. Qed.
  Lemma e_sort fr : pyset (spectators n fr) = spectators n fr.
  Proof. rewrite e_n. exact (set_sorted P Pp pyset fr Hset). Qed.
  Lemma image_sum sb sk lbl t u root p x : nth_error (w_tables P) lbl = Some t -> In u (fst (find_unique_exc (w_uroot P) true t)) -> In p (imgs P u) ->
    bsum (idxs (col (fst p))) (fun g => bsum (idxs (col (snd p))) (fun g' =>
      smul (smul (sconj (coeff lroots sb root (fst p) g)) (coeff lroots sk root (snd p) g')) (smul (D lbl (e_frags u) (e_spin u) (e_bra u, zeroed lroots (e_frags u) g) (e_ket u, zeroed lroots (e_frags u) g') x) (lstd (fst p) (snd p) (e_frags u) g g')))) =
    lsum sb sk root (fun A B => ctr lbl (e_frags u) (e_spin u) (e_bra u) (e_ket u) p A B x).
  Proof.
    intros Ht Hu Ip. destruct (u_img lbl t u Ht Hu p Ip) as (H1 & H2 & S1 & S2). destruct (u_bra lbl t u Ht Hu) as [B1 B2].
    set (F := fun a b : nat * list nat => smul (smul (sconj (cof sb root a)) (cof sk root b)) (smul (D lbl (e_frags u) (e_spin u) (e_bra u, zeroed lroots (e_frags u) (snd a)) (e_ket u, zeroed lroots (e_frags u) (snd b)) x) (lstd (fst p) (snd p) (e_frags u) (snd a) (snd b)))).
    transitivity (bsum (idxs (col (fst p))) (fun g => bsum (idxs (col (snd p))) (fun g' => F (fst p, g) (snd p, g')))); [reflexivity|].
    etransitivity; [exact (pick_sum (fst p) (fun a => bsum (idxs (col (snd p))) (fun g' => F a (snd p, g'))) H1)|].
    unfold lsum. apply bsum_ext. intros a Ia. destruct (states_in a Ia) as [Ra Va]. rewrite (pick_sum (snd p) (fun b => F a b) H2).
    transitivity (bsum states (fun b => if fst p =? fst a then (if snd p =? fst b then F a b else s0) else s0)).
    { destruct (fst p =? fst a); [reflexivity|]. symmetry. apply bsum_0. intros ? _. reflexivity. }
    apply bsum_ext. intros b Ib. destruct (states_in b Ib) as [Rb Vb]. destruct p as [b1 k1]. cbn [fst snd] in *. fold lroots.
    rewrite (contrib_value half big pyset lroots ovlp shuf (fragK K (w_nelec_rf P)) ra fa D e_ne e_rect Hget e_pos (proj1 Hset) e_sort e_ov lbl (e_frags u) (e_spin u) (e_bra u) (e_ket u) b1 k1 (fst a) (snd a) (fst b) (snd b) x
      (u_fr lbl t u Ht Hu) B1 B2 H1 H2 S1 S2 Ra Rb Va Vb).
    destruct (b1 =? fst a); cbn [andb]; [|ring]. destruct (k1 =? fst b); [reflexivity|ring].
  Qed.

  (** ** the loops *)
  Variables (sb sk : list (list K)) (hermi : bool).
  Hypothesis Wb : wide lroots sb.
  Hypothesis Wk : wide lroots sk.
  Hypothesis Hlen : length sk = length sb.
  Notation env := (crunch_env half big pyset lroots ovlp shuf (fragK K (w_nelec_rf P)) (m_norb P) ints (m_ur P) (w_nelec_rf P) (snd ud) sb sk hermi).
  Definition rowsum (lbl : nat) (u : erow) (A B : nat) (x : tix) : K := bsum (imgs P u) (fun p => ctr lbl (e_frags u) (e_spin u) (e_bra u) (e_ket u) p A B x).
  Definition added (root : nat) (F : nat -> nat -> tix -> K) (x : tix) : K :=
    sadd (lsum sb sk root (fun A B => F A B x)) (if hermi then s0 else sconj (lsum sk sb root (fun A B => F A B (tix_tr x)))).
  Lemma roots_sum tr lbl t u : nth_error (w_tables P) lbl = Some t -> In u (fst (find_unique_exc (w_uroot P) true t)) ->
    exists ds, crunch_roots half big pyset lroots ovlp shuf (fragK K (w_nelec_rf P)) (m_norb P) ints (m_ur P) (w_nelec_rf P) (snd ud) sb sk tr lbl u = Ok ds /\
      forall root x, root < length sb -> nth root ds (fun _ => s0) x = lsum (if tr then sk else sb) (if tr then sb else sk) root (fun A B => rowsum lbl u A B x).
  Proof.
    intros Ht Hu. unfold crunch_roots.
    set (g := fun root => rdm_crunch lroots (m_norb P) ints (m_ur P) (w_nelec_rf P) (get_fdm half big pyset lroots ovlp shuf (fragK K (w_nelec_rf P)) (snd ud) (if tr then sk else sb) (if tr then sb else sk) root (e_bra u) (e_ket u)) (e_bra u) (e_ket u) lbl (e_frags u) (e_spin u)).
    assert (G : forall root, root < length sb -> exists d, g root = Ok d /\ forall x, d x = lsum (if tr then sk else sb) (if tr then sb else sk) root (fun A B => rowsum lbl u A B x)).
    { intros root Hr. destruct (row_rdm (if tr then sk else sb) (if tr then sb else sk) ltac:(destruct tr; assumption) ltac:(destruct tr; assumption) lbl t u Ht Hu root ltac:(destruct tr; lia) ltac:(destruct tr; lia)) as (d & E & V).
      exists d. split; [exact E|]. intros x. rewrite V. unfold rowsum. etransitivity; [|symmetry; apply lsum_bsum]. apply bsum_ext. intros p Ip. exact (image_sum _ _ lbl t u root p x Ht Hu Ip). }
    assert (M : forall m k, k + m <= length sb -> exists ds, mapM g (seq k m) = Ok ds /\ forall i x, i < m -> nth i ds (fun _ => s0) x = lsum (if tr then sk else sb) (if tr then sb else sk) (k + i) (fun A B => rowsum lbl u A B x)).
    { induction m as [|m IH]; intros k Hm; cbn [seq mapM]; [exists []; split; [reflexivity|intros; lia]|].
      destruct (G k ltac:(lia)) as (d & E & V). rewrite E. cbn [bind]. destruct (IH (S k) ltac:(lia)) as (ds & Es & Vs). rewrite Es. cbn [bind]. exists (d :: ds). split; [reflexivity|].
      intros [|i] x Hi; cbn [nth]; [rewrite Nat.add_0_r; apply V|]. rewrite Vs by lia. f_equal. lia. }
    destruct (M (length sb) 0 (le_n _)) as (ds & E & V). exists ds. split; [exact E|]. intros root x Hr. exact (V root x Hr).
  Qed.
  Lemma env_sum lbl t u (t0 : rdms) : nth_error (w_tables P) lbl = Some t -> In u (fst (find_unique_exc (w_uroot P) true t)) ->
    exists t', env lbl t0 u = Ok t' /\ forall root x, root < length sb -> t' root x = sadd (t0 root x) (added root (rowsum lbl u) x).
  Proof.
    intros Ht Hu. unfold crunch_env. destruct (roots_sum false lbl t u Ht Hu) as (ds & E & V). rewrite E. cbn [bind]. unfold added. destruct hermi.
    - eexists. split; [reflexivity|]. intros root x Hr. unfold put_D. rewrite V by exact Hr. ring.
    - destruct (roots_sum true lbl t u Ht Hu) as (ds' & E' & V'). rewrite E'. cbn [bind]. eexists. split; [reflexivity|]. intros root x Hr. unfold put_D. rewrite V, V' by exact Hr. ring.
  Qed.
  Lemma added_zero root x : added root (fun _ _ _ => s0) x = s0.
  Proof. unfold added. rewrite !lsum_zero, sconj_0. destruct hermi; ring. Qed.
  Lemma added_add root F G x : added root (fun A B x => sadd (F A B x) (G A B x)) x = sadd (added root F x) (added root G x).
  Proof. unfold added. rewrite !lsum_add, sconj_add. destruct hermi; ring. Qed.
  Lemma rows_sum lbl t us : nth_error (w_tables P) lbl = Some t -> incl us (fst (find_unique_exc (w_uroot P) true t)) -> forall t0 : rdms,
    exists t', rdm_rows half big pyset lroots ovlp shuf (fragK K (w_nelec_rf P)) (m_norb P) ints (m_ur P) (w_nelec_rf P) (snd ud) sb sk hermi lbl us t0 = Ok t' /\
      forall root x, root < length sb -> t' root x = sadd (t0 root x) (added root (fun A B x => bsum us (fun u => rowsum lbl u A B x)) x).
  Proof.
    intros Ht. induction us as [|u us IH]; intros Hi t0; cbn [rdm_rows bsum].
    - exists t0. split; [reflexivity|]. intros. rewrite added_zero. ring.
    - destruct (env_sum lbl t u t0 Ht (Hi u (or_introl eq_refl))) as (t1 & E1 & V1). rewrite E1. cbn [bind]. destruct (IH (fun v Hv => Hi v (or_intror Hv)) t1) as (t2 & E2 & V2).
      exists t2. split; [exact E2|]. intros root x Hr. rewrite V2, V1 by exact Hr. rewrite (added_add root (rowsum lbl u) (fun A B x => bsum us (fun u => rowsum lbl u A B x)) x). ring.
  Qed.
  Lemma tables_sum : forall tabs lbl, (forall i t, nth_error tabs i = Some t -> nth_error (w_tables P) (lbl + i) = Some t) -> forall t0 : rdms,
    exists t', rdm_tables half big pyset lroots ovlp shuf (fragK K (w_nelec_rf P)) (m_norb P) ints (m_ur P) (w_nelec_rf P) (snd ud) sb sk hermi lbl (map (fun t => fst (find_unique_exc (w_uroot P) true t)) tabs) t0 = Ok t' /\
      forall root x, root < length sb -> t' root x = sadd (t0 root x) (added root (fun A B x =>
        bsum (combine (seq lbl (length tabs)) (map (fun t => fst (find_unique_exc (w_uroot P) true t)) tabs)) (fun lt => bsum (snd lt) (fun u => rowsum (fst lt) u A B x))) x).
  Proof.
    induction tabs as [|t tabs IH]; intros lbl H t0; cbn [map rdm_tables length seq combine bsum].
    - exists t0. split; [reflexivity|]. intros. rewrite added_zero. ring.
    - assert (Ht : nth_error (w_tables P) lbl = Some t) by (rewrite <- (H 0 t eq_refl); f_equal; lia).
      destruct (rows_sum lbl t _ Ht (incl_refl _) t0) as (t1 & E1 & V1). rewrite E1. cbn [bind].
      destruct (IH (S lbl)) with (t0 := t1) as (t2 & E2 & V2); [intros i t' E; rewrite <- (H (S i) t' E); f_equal; lia|].
      exists t2. split; [exact E2|]. intros root x Hr. rewrite V2, V1 by exact Hr. cbn [fst snd].
      rewrite (added_add root (fun A B x => bsum (fst (find_unique_exc (w_uroot P) true t)) (fun u => rowsum lbl u A B x))
        (fun A B x => bsum (combine (seq (S lbl) (length tabs)) (map (fun t => fst (find_unique_exc (w_uroot P) true t)) tabs)) (fun lt => bsum (snd lt) (fun u => rowsum (fst lt) u A B x))) x). ring.
  Qed.
  Lemma rdm_is_sum_shuffled : 0 < length sb -> (hermi = true -> sb = sk) -> exists T R,
    (do rf <- get_rootaddr_fragaddr (w_lroots P) ;; let ud := mask_exc_tables (w_uroot P) true (fun _ => true) (w_tables P) in
      crunch_all half big tix_tr pyset (w_lroots P) ovlp shuf (fragK K (w_nelec_rf P)) (fst rf) (snd rf) (crunch_D (m_norb P) ints (m_ur P) (w_nelec_rf P) nz) (snd ud) (fst ud)) = Ok T /\
    make_rdm_shuffled P shuf half big pyset ints ovlp sb sk hermi = Ok R /\
    forall root x, root < length sb -> R root x = lsum sb sk root (fun A B => T A B x).
  Proof.
    intros L0 Hh. fold lroots. rewrite Hget. cbn [bind fst snd]. unfold crunch_all.
    assert (Eu : fst ud = map (fun t => fst (find_unique_exc (w_uroot P) true t)) (w_tables P)) by exact (fst_ud P).
    destruct (loop_tables_sum half big pyset lroots ovlp shuf (fragK K (w_nelec_rf P)) D ra fa (snd ud) (imgs P) (fst ud) 0 (fun _ _ _ => s0)) as (T & ET & VT).
    { intros l u Hl Hu. rewrite Eu in Hl. apply in_map_iff in Hl as (t & <- & It). exact (proj1 (dict_at P t u It Hu)). }
    fold ud. unfold D in ET. rewrite ET. cbn [bind].
    destruct (tables_sum (w_tables P) 0 (fun i t E => E) (fun _ _ => s0)) as (R & ER & VR). rewrite <- Eu in ER, VR.
    unfold make_rdm_shuffled, rdm_all. fold lroots. fold ud. rewrite (proj2 (Nat.eqb_neq _ _)) by lia. rewrite ER. cbn [bind]. eexists. eexists. split; [reflexivity|]. split; [reflexivity|].
    intros root x Hr. unfold add_transpose.
    set (Q := fun A B x => bsum (combine (seq 0 (length (w_tables P))) (fst ud)) (fun lt => bsum (snd lt) (fun u => rowsum (fst lt) u A B x))) in VR.
    assert (VQ : forall A B x, T A B x = Q A B x) by (intros A B y; rewrite VT, Eu, map_length; unfold Q; rewrite Eu; unfold rowsum; ring).
    transitivity (sadd (lsum sb sk root (fun A B => Q A B x)) (sconj (lsum sk sb root (fun A B => Q A B (tix_tr x))))).
    - destruct hermi eqn:Eh.
      + rewrite !VR by exact Hr. unfold added. rewrite Eh, (Hh eq_refl), !sconj_add, sconj_0. ring.
      + rewrite VR by exact Hr. unfold added. rewrite Eh. ring.
    - rewrite lsum_conj, <- lsum_add. apply lsum_ext. intros a b _ _. rewrite !VQ. reflexivity.
  Qed.
End End_.

Lemma rdm_is_sum {K : star_ring} (P : model_space K) (half : K) (big nz : K -> bool) (pyset : list nat -> list nat) (ints : nat -> @fmats K) (ovlp : nat -> nat -> nat -> list (list K)) :
  proper P -> (forall f, f < m_nf P -> exact K (m_norb P) (m_vec P) (m_ne P) (m_nl P) f (ints f)) -> gram P ovlp -> set_like pyset -> nz s0 = false -> (forall t, In t (w_tables P) -> collision_free (w_uroot P) t) ->
  forall ra fa, get_rootaddr_fragaddr (w_lroots P) = Ok (ra, fa) -> forall (sb sk : list (list K)) (hermi : bool), wide (w_lroots P) sb -> wide (w_lroots P) sk -> length sk = length sb ->
  0 < length sb -> (hermi = true -> sb = sk) -> exists T R, make_stdm P half big nz pyset ints ovlp = Ok T /\ make_rdm P half big pyset ints ovlp sb sk hermi = Ok R /\
    forall root x, root < length sb -> R root x = lsum P sb sk root (fun A B => T A B x).
Proof. intros. eapply rdm_is_sum_shuffled; eassumption. Qed.
