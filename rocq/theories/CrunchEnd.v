(** The rows of the interaction tables of a pair of rootspaces add up to matrix elements between products of fragment states. *)
From Coq Require Import List NArith ZArith Arith Bool Btauto Lia Sorting.Permutation.
From Verif Require Import Base BaseFacts Star SCModel SCSpec FockSpec FockFacts FockOps ProdFock PermFock LprodSpec LasFock LasElem SignsModel SignsFacts LasSigns ExcSpec ExcModel UexcModel PropExc PropUexc.
From Verif Require Import StdmModel StdmFacts StdmSum PropStdm CrunchModel CrunchSpec CrunchFacts CrunchRows CrunchAll CrunchPair.
Import ListNotations.
Local Open Scope nat_scope.

(** the sign returned by a shuffle function *)
Definition sign_of (K : star_ring) (r : res bool) : K := match r with Ok b => sg K b s1 | Raise _ => s0 end.

Section End.
Variables (K : star_ring) (nf : nat) (n : nat -> nat).
Add Ring Kr : (sring K).
Variables (V : nat -> nat -> nat -> vec K) (ne : nat -> nat -> nat * nat) (nl : nat -> nat -> nat).
Variables (ints : nat -> @fmats K) (ur : nat -> nat -> nat) (nelec_rf : nat -> list nat) (nz : K -> bool).
Hypothesis H8 : nf <= 8.
Hypothesis Hne : forall f a i, f < nf -> i < nl f a -> has_nelec K (n f) (ne f a) (V f a i).
Hypothesis Hex : forall f, f < nf -> exact K n V ne nl f (ints f).
Hypothesis Hfit : forall f a, f < nf -> 0 < nl f a -> fst (ne f a) <= n f /\ snd (ne f a) <= n f.
Hypothesis Hnz : nz s0 = false.
Variables (nroots : nat) (nelec : nat -> list (Z * Z)) (lroots : list (list nat)).
Hypothesis Hel : forall r, r < nroots -> nelec r = map (fun f => (Z.of_nat (fst (ne f (ur f r))), Z.of_nat (snd (ne f (ur f r))))) (seq 0 nf).
Hypothesis Hrf : forall r, r < nroots -> nelec_rf r = map (CrunchRows.tot ne ur r) (seq 0 nf).
Hypothesis Hlen : length lroots = nf.
Hypothesis Hlr : forall f r, f < nf -> r < nroots -> nth r (nth f lroots []) 0 = nl f (ur f r).
Variable scai : list (nat * nat).
Hypothesis Ad : admissible nf nelec scai.
Hypothesis Nd : NoDup scai.
Hypothesis Hin : forall p, In p scai -> fst p < nroots /\ snd p < nroots.
Let T := make_exc_tables nf (hopping_index nelec) scai.
Let tabs := interaction_tables T.
Notation D := (crunch_D n ints ur nelec_rf nz).

Lemma elec_nes r f s e : r < nroots -> f < nf -> s < 2 -> elec nelec r f s = Z.of_nat (nes ne f (loc ur f (r, e)) s).
Proof. intros Hr Hf Hs. unfold elec, nes, loc. rewrite (Hel r Hr). rewrite (nth_map_seq0 _ nf f) by exact Hf. cbn [fst snd]. destruct (s =? 0); reflexivity. Qed.
Lemma mkconn b k fr c a e e' : b < nroots -> k < nroots -> connects nf nelec b k (c, a) -> (forall f, In f fr -> f < nf) -> within lroots b fr e -> within lroots k fr e' ->
  (forall z, In z (c ++ a) -> In (fst z) fr /\ snd z < 2) -> (forall z, In z c -> ~ In z a) -> conn nf ne nl ur (b, e) (k, e') fr c a.
Proof.
  intros Hb Hk C Hf We Wk Hz Hd. split; [|split; [|split; [|split]]].
  - intros f If. split; [auto|]. unfold st_in, loc. cbn [fst snd]. rewrite <- !Hlr by auto. split; [now apply We|now apply Wk].
  - intros f s If Hs. rewrite <- !elec_nes by auto. apply (C f s); auto.
  - intros z I. now apply Hz.
  - exact Hd.
  - intros z I. now apply Hz.
Qed.
Lemma row_pair lbl t row : nth_error tabs lbl = Some t -> In row t -> In (pair_of row) scai /\ (forall f, In f (e_frags row) -> f < nf) /\ e_bra row < nroots /\ e_ket row < nroots.
Proof.
  intros Ht Hr. destruct (table_rows lroots nelec scai t row) as [I F]; [now rewrite Hlen|exact Nd|rewrite Hlen; exact (nth_error_In _ _ Ht)|exact Hr|]. rewrite Hlen in F. destruct (Hin _ I) as [B C]. auto.
Qed.
(** every row is crunched without an exception, into the matrix elements of its fragments *)
Lemma row_value_is lbl t row e e' : nth_error tabs lbl = Some t -> In row t -> within lroots (e_bra row) (e_frags row) e -> within lroots (e_ket row) (e_frags row) e' ->
  row_is K nf n V ne ur (e_bra row, e) (e_ket row, e') (e_frags row) (crunch n ints ur nelec_rf nz lbl (e_frags row) (e_spin row) (e_bra row, e) (e_ket row, e')).
Proof.
  intros Ht Hr We Wk. destruct (row_pair lbl t row Ht Hr) as (_ & Hf & Hb & Hk). pose proof (row_shape nf nelec scai Ad Nd lbl t row Ht Hr) as S.
  assert (Rb : nelec_rf (fst (e_bra row, e)) = map (CrunchRows.tot ne ur (fst (e_bra row, e))) (seq 0 nf)) by now apply Hrf. assert (Rk : nelec_rf (fst (e_ket row, e')) = map (CrunchRows.tot ne ur (fst (e_ket row, e'))) (seq 0 nf)) by now apply Hrf.
  destruct S; cbn [e_bra e_ket e_frags e_spin crunch] in *.
  - apply (row_1d K nf n V ne nl); auto. apply mkconn; auto; intros z [].
  - apply (row_2d K nf n V ne nl); auto. apply mkconn; auto; intros z [].
  - apply (row_1c K nf n V ne nl); auto. apply mkconn; auto; intros z; cbn [app In]; [intros [<-|[<-|[]]]; cbn; auto|intros [<-|[]] [E|[]]; congruence].
  - apply (row_1c1d K nf n V ne nl); auto. apply mkconn; auto; intros z; cbn [app In]; [intros [<-|[<-|[]]]; cbn; auto|intros [<-|[]] [E|[]]; congruence].
  - apply (row_1s K nf n V ne nl); auto. apply mkconn; auto; intros z; cbn [app In]; [intros [<-|[<-|[<-|[<-|[]]]]]; cbn; auto|intros [<-|[<-|[]]] [E|[E|[]]]; congruence].
  - assert (ND : i <> j /\ i <> l /\ j <> l). { match goal with H : NoDup _ |- _ => apply NoDup_cons_iff in H as [N1 H]; apply NoDup_cons_iff in H as [N2 _]; cbn in N1, N2 end. repeat split; intros ->; tauto. } destruct ND as (N1 & N2 & N3).
    apply (row_1s1c K nf n V ne nl); auto. apply mkconn; auto; intros z; cbn [app In]; [intros [<-|[<-|[<-|[<-|[]]]]]; cbn [fst snd]; (split; [auto|lia])|intros [<-|[<-|[]]] [E|[E|[]]]; destruct s as [|[|s]]; cbn in E; try congruence; lia].
  - apply (row_2c K nf n V ne nl); auto. assert (Sp : CrunchRows.sp1 s < 2 /\ CrunchRows.sp2 s < 2) by (destruct s as [|[|[|]]]; cbn; lia).
    apply mkconn; auto; intros z; cbn [app In]; [intros [<-|[<-|[<-|[<-|[]]]]]; cbn [fst snd]; (split; [auto 6|tauto])|intros [<-|[<-|[]]] [E|[E|[]]]; congruence].
Qed.
Notation tixb := (tixb nf n).
Notation Lf fr b k ops := (Lel K nf n V ne fr (fun f => loc ur f b) (fun f => loc ur f k) ops).
Lemma D_value lbl t row e e' x : nth_error tabs lbl = Some t -> In row t -> within lroots (e_bra row) (e_frags row) e -> within lroots (e_ket row) (e_frags row) e' ->
  D lbl (e_frags row) (e_spin row) (e_bra row, e) (e_ket row, e') x = if tixb x && touch (e_frags row) x then Lf (e_frags row) (e_bra row, e) (e_ket row, e') (xops x) else s0.
Proof. intros Ht Hr We Wk. destruct (row_value_is lbl t row e e' Ht Hr We Wk) as (d & E & H). unfold crunch_D. rewrite E. apply H. Qed.
Lemma tixb_tr x : tixb (tix_tr x) = tixb x.
Proof. destruct x as [s p q|b p q r u]; cbn; btauto. Qed.
Lemma touch_tr fr x : touch fr (tix_tr x) = touch fr x.
Proof.
  apply eq_true_iff_eq. rewrite !touch_iff. assert (E : forall f, In f (xfr (tix_tr x)) <-> In f (xfr x)) by (intros f; destruct x as [s p q|b p q r u]; cbn; tauto).
  split; intros H f; rewrite <- (H f); [symmetry|]; apply E.
Qed.
Lemma touch_perm fr fr' x : Permutation fr fr' -> touch fr x = touch fr' x.
Proof. intros P. apply eq_true_iff_eq. rewrite !touch_iff. split; intros H f; rewrite (H f); [now rewrite P|now rewrite <- P]. Qed.
Variable uroot : Z -> Z -> Z.
Hypothesis Hur : forall r f, r < nroots -> f < nf -> uroot (Z.of_nat r) (Z.of_nat f) = Z.of_nat (ur f r).
Lemma crunch_hermitian : local_hermitian lroots tix_tr uroot tabs D.
Proof.
  intros lbl t r1 r2 e1 e1' e2 e2' x Ht I1 I2 P W W' A A'. destruct (row_pair lbl t r1 Ht I1) as (_ & Hf1 & Hb1 & Hk1). destruct (row_pair lbl t r2 Ht I2) as (_ & Hf2 & Hb2 & Hk2).
  assert (Pi : forall f, In f (e_frags r1) <-> In f (e_frags r2)) by (intros f; split; apply Permutation_in; [exact P|now symmetry]).
  split; intros Al.
  - assert (Al' : forall f, In f (e_frags r1) -> ur f (e_bra r1) = ur f (e_bra r2) /\ ur f (e_ket r1) = ur f (e_ket r2)).
    { intros f If. destruct (Al f If) as [E1 E2]. unfold pair_of in E1, E2. cbn [fst snd] in E1, E2. rewrite !Hur in E1, E2 by auto. split; lia. }
    rewrite (D_value lbl t r1) by assumption. rewrite (D_value lbl t r2); auto.
    + rewrite (touch_perm _ _ x P). destruct (tixb x && touch (e_frags r2) x); [|reflexivity]. apply Lel_ext; [exact Pi|]. intros f If _. unfold loc. cbn [fst snd]. destruct (Al' f If) as [-> ->]. rewrite (A f If), (A' f If). auto.
    + intros f If. apply Pi in If. rewrite <- (A f If). rewrite Hlr by auto. rewrite <- (proj1 (Al' f If)), <- Hlr by auto. now apply W.
    + intros f If. apply Pi in If. rewrite <- (A' f If). rewrite Hlr by auto. rewrite <- (proj2 (Al' f If)), <- Hlr by auto. now apply W'.
  - assert (Al' : forall f, In f (e_frags r1) -> ur f (e_ket r1) = ur f (e_bra r2) /\ ur f (e_bra r1) = ur f (e_ket r2)).
    { intros f If. destruct (Al f If) as [E1 E2]. unfold pair_of in E1, E2. cbn [fst snd] in E1, E2. rewrite !Hur in E1, E2 by auto. split; lia. }
    rewrite (D_value lbl t r1) by assumption. rewrite (D_value lbl t r2); auto.
    + rewrite tixb_tr, touch_tr, (touch_perm _ _ x P). destruct (tixb x && touch (e_frags r2) x) eqn:Tx; [|apply sconj_0]. apply andb_prop in Tx as [Tx Tt]. destruct (tixb_ops nf n _ Tx) as [Fo _]. rewrite touch_iff in Tt.
      rewrite (Lel_adj K nf n V ne nl Hne).
      * rewrite xops_tr. replace (rev (map flip (rev (map flip (xops x))))) with (xops x).
        2:{ rewrite map_rev, rev_involutive, map_map. rewrite <- (map_id (xops x)) at 1. apply map_ext. intros [k0 [[g d] o]]. unfold flip. cbn. now rewrite negb_involutive. }
        apply Lel_ext; [exact Pi|]. intros f If _. unfold loc. cbn [fst snd]. destruct (Al' f If) as [-> ->]. rewrite (A f If), (A' f If). auto.
      * rewrite xops_tr. now apply okop_adj.
      * intros z Iz. apply Pi, Tt. assert (E : forall f, In f (xfr (tix_tr x)) <-> In f (xfr x)) by (intros f; destruct x as [s0' p q|b p q r u]; cbn; tauto). apply E. unfold xfr. now apply in_map.
      * intros f If. split; [auto|]. unfold st_in, loc. cbn [fst snd]. rewrite <- !Hlr by auto. split; [now apply W|now apply W'].
    + intros f If. apply Pi in If. rewrite <- (A' f If). rewrite Hlr by auto. rewrite <- (proj1 (Al' f If)), <- Hlr by auto. now apply W'.
    + intros f If. apply Pi in If. rewrite <- (A f If). rewrite Hlr by auto. rewrite <- (proj2 (Al' f If)), <- Hlr by auto. now apply W.
Qed.
Variables (big : K -> bool) (pyset : list nat -> list nat) (ovlp : nat -> nat -> nat -> list (list K)).
Hypothesis Hbig : forall v, big v = false -> v = s0.
Hypothesis Hset : forall l, NoDup (pyset l) /\ forall f, In f (pyset l) <-> In f l.
Hypothesis Hov : forall f b k i j, f < nf -> b < nroots -> k < nroots -> i < nl f (ur f b) -> j < nl f (ur f k) -> mat_at (ovlp f b k) i j = inner K (2 * n f) (V f (ur f b) i) (V f (ur f k) j).
Definition spinK (r : nat) : K := sign_of K (fermion_spin_shuffle (map (fun p => Z.to_nat (fst p)) (nelec r)) (map (fun p => Z.to_nat (snd p)) (nelec r))).
Definition fragK (r : nat) (l : list nat) : K := sign_of K (fermion_frag_shuffle (nelec_rf r) l).
Definition state (r : nat) (e : list nat) (f : nat) : vec K := V f (ur f r) (nth f e 0).
Definition exists_state (r : nat) (e : list nat) : Prop := forall f, f < nf -> nth f e 0 < nl f (ur f r).
Notation chgr r := (fun f => ne f (ur f r)).
Notation pbr r := (fun f => Nat.odd (fst (ne f (ur f r)) + snd (ne f (ur f r)))).
Lemma spinK_is r : r < nroots -> spinK r = sg K (spar nf (chgr r)) s1.
Proof.
  intros Hr. unfold spinK. rewrite (Hel r Hr), !map_map. cbn [fst snd].
  rewrite (map_ext (fun f => Z.to_nat (Z.of_nat (fst (ne f (ur f r))))) (fun f => fst (chgr r f))) by (intros; apply Nat2Z.id). rewrite (map_ext (fun f => Z.to_nat (Z.of_nat (snd (ne f (ur f r))))) (fun f => snd (chgr r f))) by (intros; apply Nat2Z.id).
  rewrite spin_shuffle_spar. reflexivity.
Qed.
Lemma fragK_is r fr f0 : r < nroots -> (forall f, In f fr -> f < nf) -> In f0 fr -> (forall f, In f fr -> f0 <= f) -> fragK r (pyset fr) = sg K (fsh nf (fun f => mem f fr) f0 (pbr r)) s1.
Proof.
  intros Hr Hf I0 Hm. unfold fragK. rewrite (Hrf r Hr). rewrite (frag_shuffle_fsh nf (CrunchRows.tot ne ur r) (pyset fr) f0).
  - cbn [sign_of]. f_equal. unfold fsh, podd, CrunchRows.tot. apply parity_ext. intros f If. assert (E : forall g, mem g (pyset fr) = mem g fr) by (intros g; apply eq_true_iff_eq; rewrite !mem_iff; apply Hset).
    rewrite E. f_equal. apply parity_ext. intros g _. now rewrite E.
  - apply Forall_forall. intros f If. apply Hset, Hf in If. lia.
  - apply Forall_forall. intros f If. apply Hset, Hf in If. lia.
  - now apply Hset.
  - intros f If. exact (Hm f (proj1 (proj2 (Hset fr) f) If)).
Qed.
Lemma bprods (l : list nat) (g : nat -> K) : StdmFacts.bprod l g = LprodSpec.bprod K l g.
Proof. induction l as [|a l IH]; [reflexivity|]. cbn. now rewrite IH. Qed.
Lemma weight_is b k fr f0 e e' : b < nroots -> k < nroots -> (forall f, In f fr -> f < nf) -> In f0 fr -> (forall f, In f fr -> f0 <= f) -> exists_state b e -> exists_state k e' ->
  weight pyset lroots ovlp spinK fragK b k fr e e' =
  sg K (xorb (xorb (spar nf (chgr b)) (spar nf (chgr k))) (xorb (fsh nf (fun f => mem f fr) f0 (pbr b)) (fsh nf (fun f => mem f fr) f0 (pbr k))))
    (LprodSpec.bprod K (filter (fun f => negb (mem f fr)) (seq 0 nf)) (fun f => inner K (2 * n f) (state b e f) (state k e' f))).
Proof.
  intros Hb Hk Hf I0 Hm Se Sk. unfold weight. rewrite bprods, Hlen. unfold spectators. rewrite !spinK_is, !(fragK_is _ fr f0) by assumption.
  rewrite (LasFock.bprod_ext K _ (fun f => mat_at (ovlp f b k) (nth f e 0) (nth f e' 0)) (fun f => inner K (2 * n f) (state b e f) (state k e' f))).
  - repeat first [rewrite sg_mul|rewrite mul_sg]. rewrite !sg_sg. match goal with |- sg K ?p _ = sg K ?q _ => replace q with p by btauto end. apply (f_equal (sg K _)). unfold mem. ring.
  - intros f If. apply filter_In in If as [If _]. apply in_seq in If. apply Hov; auto; [lia|apply Se; lia|apply Sk; lia].
Qed.
Lemma xfr_some x : exists f, In f (xfr x).
Proof. destruct x as [s p q|b p q r u]; exists (fst p); cbn; auto. Qed.
Lemma xops_even x : Nat.even (length (xops x)) = true.
Proof. now destruct x. Qed.
Lemma element_is lbl t row e e' x : nth_error tabs lbl = Some t -> In row t -> exists_state (e_bra row) e -> exists_state (e_ket row) e' ->
  element big pyset lroots ovlp spinK fragK D lbl row e e' x = if tixb x && touch (e_frags row) x then elem nf n K (state (e_bra row) e) (state (e_ket row) e') (xops x) else s0.
Proof.
  intros Ht Hr Se Sk. destruct (row_pair lbl t row Ht Hr) as (_ & Hf & Hb & Hk). unfold element. cbv zeta.
  assert (Wb : forall r fr e0, r < nroots -> (forall f, In f fr -> f < nf) -> exists_state r e0 -> within lroots r fr e0) by (intros r fr e0 Hr0 Hf0 S f If; rewrite Hlr by auto; apply S; auto).
  rewrite (D_value lbl t row) by auto. set (w := weight _ _ _ _ _ _ _ _ _ _). assert (Ew : (if big w then w else s0) = w) by (destruct (big w) eqn:B; [reflexivity|symmetry; now apply Hbig]). rewrite Ew.
  destruct (tixb x && touch (e_frags row) x) eqn:Tx; [|ring]. apply andb_prop in Tx as [Tx Tt]. destruct (tixb_ops nf n _ Tx) as [Fo _]. rewrite touch_iff in Tt.
  destruct (list_min (e_frags row)) as (f0 & I0 & Hm). { destruct (xfr_some x) as [f If]. apply Tt in If. intros E. now rewrite E in If. }
  unfold w. rewrite (weight_is _ _ _ f0) by auto.
  exact (Lel_elem K nf n V ne nl Hne (e_frags row) (fun f => loc ur f (e_bra row, e)) (fun f => loc ur f (e_ket row, e')) (xops x) f0 Fo (xops_even x) (fun f => proj1 (Tt f)) Hf I0 Hm (fun f H => conj (Se f H) (Sk f H))).
Qed.
(** ** every entry is written once, or is zero *)
Notation E b e k e' x := (elem nf n K (state b e) (state k e') (xops x)).
Lemma E_fits b e k e' x : tixb x = true -> exists_state b e -> exists_state k e' ->
  (forall f s, f < nf -> s < 2 -> Z.of_nat (nes ne f (loc ur f (b, e)) s) = (Z.of_nat (nes ne f (loc ur f (k, e')) s) + moves (xcre x) (xann x) f s)%Z) \/ E b e k e' x = s0.
Proof.
  intros Tx Se Sk. destruct (tixb_ops nf n _ Tx) as [Fo Sx]. destruct (fits_dec ne (fun f => loc ur f (b, e)) (fun f => loc ur f (k, e')) (xops x) (seq 0 nf)) as [F|(f & If & N)].
  - left. intros f s Hf Hs. destruct (F f) as [F0 F1]; [apply in_seq; lia|]. unfold chg in F0, F1. rewrite <- gain_moves by assumption. destruct s as [|[|]]; [exact F0|exact F1|lia].
  - right. apply in_seq in If. exact (elem_zero K nf n V ne nl Hne (fun f => loc ur f (b, e)) (fun f => loc ur f (k, e')) (xops x) f ltac:(lia) (fun f H => conj (Se f H) (Sk f H)) Fo N).
Qed.
Lemma xfr_lt x f : tixb x = true -> In f (xfr x) -> f < nf.
Proof. intros Tx If. destruct (tixb_ops nf n _ Tx) as [Fo _]. unfold xfr in If. apply in_map_iff in If as ([k [[g d] o]] & <- & I). rewrite Forall_forall in Fo. exact (proj1 (Fo _ I)). Qed.
Lemma fop_frag x z : tixb x = true -> In z (xcre x ++ xann x) -> fst z < nf /\ snd z < 2.
Proof. intros Tx I. split; [apply (xfr_lt x); [exact Tx|apply xfr_spec; now exists z]|]. destruct (tixb_ops nf n _ Tx) as [_ Sx]. now apply (xspin_lt x). Qed.
(** between rootspaces that the Slater-Condon rules do not connect there is nothing *)
Lemma uncoupled_zero b e k e' x : tixb x = true -> b < nroots -> k < nroots -> exists_state b e -> exists_state k e' -> is_interaction_coupled (nelec b) (nelec k) = false -> E b e k e' x = s0.
Proof.
  intros Tx Hb Hk Se Sk U. destruct (E_fits b e k e' x Tx Se Sk) as [F|F]; [exfalso|exact F].
  rewrite (Hel b Hb), (Hel k Hk) in U. rewrite (coupled_of nf (fun f => (Z.of_nat (fst (ne f (ur f b))), Z.of_nat (snd (ne f (ur f b))))) (fun f => (Z.of_nat (fst (ne f (ur f k))), Z.of_nat (snd (ne f (ur f k))))) (xcre x) (xann x)) in U; [discriminate|..].
  - intros z I. now apply fop_frag in I.
  - now destruct x.
  - destruct x; cbn; lia.
  - destruct x as [s p q|c p q r u]; unfold cnt_spin; cbn [xcre xann map snd]; unfold sumZ; cbn [fold_right fold_left]; lia.
  - destruct x as [s p q|c p q r u]; unfold cnt_spin; cbn [xcre xann map snd]; unfold sumZ; cbn [fold_right fold_left]; lia.
  - intros f Hf. split; [exact (F f 0 Hf ltac:(lia))|exact (F f 1 Hf ltac:(lia))].
Qed.
Notation tot_hits b k x := (CrunchPair.total nf nelec scai b k (xfr x)).
Lemma once_or_zero b e k e' x : tixb x = true -> In (b, k) scai -> exists_state b e -> exists_state k e' -> tot_hits b k x = 1 \/ E b e k e' x = s0.
Proof.
  intros Tx Ip Se Sk. destruct (E_fits b e k e' x Tx Se Sk) as [F|F]; [left|now right]. destruct (Hin _ Ip) as [Hb Hk]. cbn [fst snd] in Hb, Hk.
  assert (Bal : forall c a, connects nf nelec b k (c, a) -> (forall z, In z (c ++ a) -> fst z < nf /\ snd z < 2) -> (forall z, In z c -> ~ In z a) ->
    exists e e', Permutation (xcre x) (c ++ e) /\ Permutation (xann x) (a ++ e') /\ Permutation e e').
  { intros c a C Hz Hd. apply balance; [|exact Hd]. intros [f s]. destruct (le_lt_dec nf f) as [L|L]; [|destruct (le_lt_dec 2 s) as [L'|L']].
    - rewrite !times_in; [reflexivity|..]; intros J; [specialize (Hz (f, s) ltac:(apply in_or_app; now right))|specialize (Hz (f, s) ltac:(apply in_or_app; now left))|pose proof (fop_frag x (f, s) Tx ltac:(apply in_or_app; now right)) as Hz'|pose proof (fop_frag x (f, s) Tx ltac:(apply in_or_app; now left)) as Hz']; cbn [fst snd] in *; lia.
    - rewrite !times_in; [reflexivity|..]; intros J; [specialize (Hz (f, s) ltac:(apply in_or_app; now right))|specialize (Hz (f, s) ltac:(apply in_or_app; now left))|pose proof (fop_frag x (f, s) Tx ltac:(apply in_or_app; now right)) as Hz'|pose proof (fop_frag x (f, s) Tx ltac:(apply in_or_app; now left)) as Hz']; cbn [fst snd] in *; lia.
    - specialize (F f s L L'). pose proof (C f s L L') as C'. rewrite (elec_nes b f s e), (elec_nes k f s e') in C' by assumption. cbn [fst snd] in C'. unfold moves in *. lia. }
  assert (Set_ : forall c a e0 e0', Permutation (xcre x) (c ++ e0) -> Permutation (xann x) (a ++ e0') -> Permutation e0 e0' -> forall f, In f (xfr x) <-> exists z, (In z c \/ In z a \/ In z e0) /\ fst z = f).
  { intros c a e0 e0' P1 P2 P3 f. rewrite xfr_spec. split; intros (z & I & Ez); exists z; (split; [|exact Ez]).
    - apply in_app_or in I as [I|I]; [apply (Permutation_in _ P1) in I|apply (Permutation_in _ P2) in I]; apply in_app_or in I as [I|I]; auto. right; right. now apply (Permutation_in _ (Permutation_sym P3)).
    - apply in_or_app. destruct I as [I|[I|I]]; [left; apply (Permutation_in _ (Permutation_sym P1)), in_or_app; now left|right; apply (Permutation_in _ (Permutation_sym P2)), in_or_app; now left|left; apply (Permutation_in _ (Permutation_sym P1)), in_or_app; now right]. }
  assert (Lx : 1 <= length (xcre x) <= 2) by (destruct x; cbn; lia).
  assert (Hfs : forall f, In f (xfr x) -> f < nf) by (intros f; now apply xfr_lt).
  pose proof (C54_each_once _ _ _ Ad) as P. cbv zeta in P. fold T in P. assert (I0 : In (b, k) (map pair_of (t_null T ++ t_1c T ++ t_1s T ++ t_1s1c T ++ t_2c T))) by now apply (Permutation_in _ P).
  apply in_map_iff in I0 as (r0 & P0 & I0). pose proof I0 as Ib. rewrite !in_app_iff in I0. destruct (C54_rows _ _ _ Ad) as (_ & R1 & _ & R3 & R4). fold T in R1, R3, R4. pose proof P0 as P0'. unfold pair_of in P0'. injection P0' as Eb Ek.
  destruct I0 as [I0|[I0|[I0|[I0|I0]]]].
  - destruct (null_shape nf nelec scai Ad r0 I0) as (_ & _ & C). rewrite Eb, Ek in C. destruct (Bal [] [] C ltac:(intros z []) ltac:(intros z [])) as (e0 & e0' & P1 & P2 & P3). pose proof (Set_ _ _ _ _ P1 P2 P3) as Hs. cbn [app] in P1. apply Permutation_length in P1.
    destruct e0 as [|z [|z' [|]]]; cbn in P1; try lia.
    + apply (total_null nf nelec scai Ad Nd b k (xfr x) Hfs r0 Ib P0 (fst z) (fst z) I0). intros f. rewrite Hs. split; [intros (y & [[]|[[]|[<-|[]]]] & <-); auto|intros H; exists z; split; [right; right; now left|destruct H; now symmetry]].
    + apply (total_null nf nelec scai Ad Nd b k (xfr x) Hfs r0 Ib P0 (fst z) (fst z') I0). intros f. rewrite Hs. split; [intros (y & [[]|[[]|[<-|[<-|[]]]]] & <-); auto|intros [H|H]; [exists z|exists z']; (split; [right; right; cbn; auto|now symmetry])].
  - destruct (R1 r0 I0) as (i & j & s & Ef & _ & Hi & Hj & Nij & Hs & C). rewrite Eb, Ek in C.
    destruct (Bal [(i, s)] [(j, s)] C) as (e0 & e0' & P1 & P2 & P3); [intros z [<-|[<-|[]]]; cbn; auto|intros z [<-|[]] [Ez|[]]; congruence|]. pose proof (Set_ _ _ _ _ P1 P2 P3) as Hx. cbn [app] in P1. apply Permutation_length in P1.
    destruct e0 as [|z [|]]; cbn in P1; try lia.
    + apply (total_1c nf nelec scai Ad Nd b k (xfr x) Hfs r0 Ib P0 i j i I0 Ef). intros f. rewrite Hx. split; [intros (y & [[<-|[]]|[[<-|[]]|[]]] & <-); cbn; auto|]. intros H. assert (H' : f = i \/ f = j) by tauto. destruct H' as [->| ->]; [exists (i, s)|exists (j, s)]; cbn; auto.
    + apply (total_1c nf nelec scai Ad Nd b k (xfr x) Hfs r0 Ib P0 i j (fst z) I0 Ef). intros f. rewrite Hx. split; [intros (y & [[<-|[]]|[[<-|[]]|[<-|[]]]] & <-); cbn; auto|]. intros [->|[->| ->]]; [exists (i, s)|exists (j, s)|exists z]; cbn; auto 6.
  - destruct (s1_shape nf nelec scai Ad r0 I0) as (i & j & Ef & _ & Hi & Hj & Nij & C). rewrite Eb, Ek in C. unfold ops_1s in C.
    destruct (Bal _ _ C) as (e0 & e0' & P1 & P2 & P3); [intros z [<-|[<-|[<-|[<-|[]]]]]; cbn; auto|intros z [<-|[<-|[]]] [Ez|[Ez|[]]]; congruence|]. pose proof (Set_ _ _ _ _ P1 P2 P3) as Hx. apply Permutation_length in P1. destruct e0; [|cbn in P1; lia].
    apply (total_1s nf nelec scai Ad Nd b k (xfr x) r0 Ib P0 I0). intros f. rewrite Hx, Ef. split; [intros (y & [[<-|[<-|[]]]|[[<-|[<-|[]]]|[]]] & <-); cbn; auto|]. intros [<-|[<-|[]]]; [exists (i, 0)|exists (j, 1)]; cbn; auto.
  - destruct (R3 r0 I0) as (i & j & l & s & Ef & _ & Hi & Hj & Hl & ND & Hs & C). rewrite Eb, Ek in C. unfold ops_1s1c in C. apply NoDup_cons_iff in ND as [N1 ND]. apply NoDup_cons_iff in ND as [N2 _]. cbn in N1, N2. assert (Nij : i <> j) by (intros ->; tauto). assert (Nil : i <> l) by (intros ->; tauto). assert (Njl : j <> l) by (intros ->; tauto).
    destruct (Bal _ _ C) as (e0 & e0' & P1 & P2 & P3); [intros z [<-|[<-|[<-|[<-|[]]]]]; cbn [fst snd]; (split; [auto|lia])|intros z [<-|[<-|[]]] [Ez|[Ez|[]]]; destruct s as [|[|s]]; cbn in Ez; try congruence; lia|]. pose proof (Set_ _ _ _ _ P1 P2 P3) as Hx. apply Permutation_length in P1. destruct e0; [|cbn in P1; lia].
    apply (total_1s1c nf nelec scai Ad Nd b k (xfr x) r0 Ib P0 I0). intros f. rewrite Hx, Ef. split; [intros (y & [[<-|[<-|[]]]|[[<-|[<-|[]]]|[]]] & <-); cbn; auto|]. intros [<-|[<-|[<-|[]]]]; [exists (i, s)|exists (j, 1 - s)|exists (l, 1 - s)]; cbn; auto.
  - destruct (R4 r0 I0) as (i & j & l & m & s & Ef & _ & Hi & Hj & Hl & Hm & N1 & N2 & N3 & N4 & Hs & C). rewrite Eb, Ek in C. unfold ops_2c in C. cbv zeta in C. set (s1 := Nat.div s 2) in *. assert (Sp : s1 < 2 /\ s - s1 < 2) by (unfold s1; destruct s as [|[|[|]]]; cbn; lia).
    destruct (Bal _ _ C) as (e0 & e0' & P1 & P2 & P3); [intros z [<-|[<-|[<-|[<-|[]]]]]; cbn [fst snd]; tauto|intros z [<-|[<-|[]]] [Ez|[Ez|[]]]; congruence|]. pose proof (Set_ _ _ _ _ P1 P2 P3) as Hx. apply Permutation_length in P1. destruct e0; [|cbn in P1; lia].
    apply (total_2c nf nelec scai Ad Nd b k (xfr x) r0 Ib P0 I0). intros f. rewrite Hx, Ef. split; [intros (y & [[<-|[<-|[]]]|[[<-|[<-|[]]]|[]]] & <-); cbn; auto 6|]. intros [<-|[<-|[<-|[<-|[]]]]]; [exists (i, s1)|exists (j, s1)|exists (l, s - s1)|exists (m, s - s1)]; cbn [fst In]; auto 6.
Qed.
Hypothesis Hlow : forall p, In p scai -> snd p <= fst p.
Hypothesis Hall : forall b k, k <= b < nroots -> is_interaction_coupled (nelec b) (nelec k) = true -> In (b, k) scai.
Definition ntimes (m : nat) (v : K) : K := bsum (seq 0 m) (fun _ => v).
Lemma bsum_const {A} (l l' : list A) (v : K) : length l = length l' -> bsum l (fun _ => v) = bsum l' (fun _ => v).
Proof. revert l'. induction l as [|a l IH]; intros [|a' l'] H; try discriminate; [reflexivity|]. cbn. now rewrite (IH l') by (cbn in H; lia). Qed.
Lemma ntimes_add a b v : ntimes (a + b) v = sadd (ntimes a v) (ntimes b v).
Proof. unfold ntimes. rewrite seq_app, bsum_app. f_equal. apply bsum_const. now rewrite !seq_length. Qed.
Lemma hits_sum b k fs v t : bsum t (fun row => if hit b k fs row then v else s0) = ntimes (hits b k fs t) v.
Proof.
  induction t as [|row t IH]; [reflexivity|]. cbn [bsum]. rewrite IH. unfold hits. cbn [filter]. destruct (hit b k fs row); [cbn [length]; change (S ?m) with (1 + m); rewrite ntimes_add; f_equal; unfold ntimes; cbn; ring|ring].
Qed.
Lemma tabs_sum {A} (l : list A) (h : A -> nat) v : forall a, bsum (combine (seq a (length l)) l) (fun lt => ntimes (h (snd lt)) v) = ntimes (list_sum (map h l)) v.
Proof. induction l as [|x l IH]; intros a; [reflexivity|]. cbn [length seq combine bsum map list_sum fold_right snd]. rewrite IH. symmetry. apply ntimes_add. Qed.
Lemma pair_sum b e k e' y : tixb y = true -> k <= b < nroots -> exists_state b e -> exists_state k e' ->
  bsum (combine (seq 0 (length tabs)) tabs) (fun lt => bsum (snd lt) (fun row => if hit b k (xfr y) row then E b e k e' y else s0)) = E b e k e' y.
Proof.
  intros Ty Hbk Se Sk. rewrite (bsum_ext K _ _ (fun lt => ntimes (hits b k (xfr y) (snd lt)) (E b e k e' y))) by (intros; apply hits_sum). rewrite tabs_sum.
  change (list_sum (map (hits b k (xfr y)) tabs)) with (tot_hits b k y).
  destruct (is_interaction_coupled (nelec b) (nelec k)) eqn:C.
  - destruct (once_or_zero b e k e' y Ty (Hall b k Hbk C) Se Sk) as [-> | ->]; [unfold ntimes; cbn; ring|unfold ntimes; now apply bsum_0].
  - rewrite (uncoupled_zero b e k e' y) by (auto; lia). unfold ntimes. now apply bsum_0.
Qed.
Lemma reference_is r e r' e' x : tixb x = true -> r < nroots -> r' < nroots -> exists_state r e -> exists_state r' e' ->
  reference big tix_tr pyset lroots ovlp spinK fragK D tabs r e r' e' x = E r e r' e' x.
Proof.
  intros Tx Hr Hr' Se Sk. unfold reference. destruct (le_lt_dec r' r) as [L|L].
  - rewrite <- (pair_sum r e r' e' x) by (auto; lia). apply bsum_ext. intros [lbl t] Hlt. cbn [fst snd]. apply (in_combine_seq lroots) in Hlt as [_ Ht]. rewrite Nat.sub_0_r in Ht. apply bsum_ext. intros row Irow.
    destruct (row_pair lbl t row Ht Irow) as (Ip & _). apply Hlow in Ip. cbn [pair_of fst snd] in Ip. unfold hit. destruct (Nat.eqb_spec (e_bra row) r) as [Eb|Nb], (Nat.eqb_spec (e_ket row) r') as [Ek|Nk]; cbn [andb].
    + subst r r'. rewrite (element_is lbl t row e e' x) by assumption. rewrite Tx. reflexivity.
    + destruct (Nat.eqb_spec (e_bra row) r'), (Nat.eqb_spec (e_ket row) r); cbn [andb]; try reflexivity. lia.
    + destruct (Nat.eqb_spec (e_bra row) r'), (Nat.eqb_spec (e_ket row) r); cbn [andb]; try reflexivity. lia.
    + destruct (Nat.eqb_spec (e_bra row) r'), (Nat.eqb_spec (e_ket row) r); cbn [andb]; try reflexivity. lia.
  - destruct (tixb_ops nf n _ Tx) as [Fo _]. rewrite <- (elem_adj K nf n (state r' e') (state r e) x Fo). rewrite <- (pair_sum r' e' r e (tix_tr x)) by (auto; try lia; now rewrite tixb_tr). rewrite bsum_conj. apply bsum_ext. intros [lbl t] Hlt. cbn [fst snd]. apply (in_combine_seq lroots) in Hlt as [_ Ht]. rewrite Nat.sub_0_r in Ht. rewrite bsum_conj. apply bsum_ext. intros row Irow.
    destruct (row_pair lbl t row Ht Irow) as (Ip & _). apply Hlow in Ip. cbn [pair_of fst snd] in Ip. unfold hit. destruct (Nat.eqb_spec (e_bra row) r'), (Nat.eqb_spec (e_ket row) r), (Nat.eqb_spec (e_bra row) r), (Nat.eqb_spec (e_ket row) r'); cbn [andb]; try lia; try (symmetry; apply sconj_0).
    + subst r r'. rewrite (element_is lbl t row e' e (tix_tr x)) by assumption. rewrite tixb_tr, Tx. reflexivity.
Qed.
End End.
