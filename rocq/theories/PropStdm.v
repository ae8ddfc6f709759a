(** Property C56: the assembled transition density matrices. *)
From Coq Require Import List ZArith Bool Arith Lia Permutation Ring QArith Qcanon.
From Verif Require Import Base BaseFacts Star AddrModel AddrSpec AddrProofs SCModel SCSpec SCPrint ExcModel PropExc UexcModel UexcFacts PropUexc StdmModel StdmFacts StdmSum.
Import ListNotations.
Close Scope Qc_scope. Close Scope Q_scope.
Local Open Scope nat_scope.

Definition agree (fr e e' : list nat) : Prop := forall f, In f fr -> nth f e 0 = nth f e' 0.
(** local states that exist *)
Definition within (lroots : list (list nat)) (r : nat) (fr e : list nat) : Prop := forall f, In f fr -> nth f e 0 < nth r (nth f lroots []) 0.
(** The matrix elements of one kind of interaction depend only on the local states of its fragments; exchanging bra and ket gives the
    conjugate transpose. *)
Definition local_hermitian {K : star_ring} {X} (lroots : list (list nat)) (tr : X -> X) (uroot : Z -> Z -> Z) (tabs : list (list erow))
    (D : nat -> list nat -> option nat -> nat * list nat -> nat * list nat -> X -> K) : Prop :=
  forall lbl t r1 r2 e1 e1' e2 e2' x, nth_error tabs lbl = Some t -> In r1 t -> In r2 t -> Permutation (e_frags r1) (e_frags r2) ->
  within lroots (e_bra r1) (e_frags r1) e1 -> within lroots (e_ket r1) (e_frags r1) e1' ->
  agree (e_frags r1) e1 e2 -> agree (e_frags r1) e1' e2' ->
  (alike uroot (e_frags r1) (pair_of r1) (pair_of r2) ->
     D lbl (e_frags r1) (e_spin r1) (e_bra r1, e1) (e_ket r1, e1') x = D lbl (e_frags r2) (e_spin r2) (e_bra r2, e2) (e_ket r2, e2') x) /\
  (alike uroot (e_frags r1) (e_ket r1, e_bra r1) (pair_of r2) ->
     sconj (D lbl (e_frags r1) (e_spin r1) (e_bra r1, e1) (e_ket r1, e1') (tr x)) = D lbl (e_frags r2) (e_spin r2) (e_bra r2, e2') (e_ket r2, e2) x).
(** overlap matrices of the local states of fragment f in two rootspaces *)
Definition overlaps {K : star_ring} (lroots : list (list nat)) (ovlp : nat -> nat -> nat -> list (list K)) : Prop :=
  forall f b k, f < length lroots -> b < length (hd [] lroots) -> k < length (hd [] lroots) ->
    shaped (ovlp f b k) (nth b (nth f lroots []) 0) (nth k (nth f lroots []) 0) /\
    forall i j, i < nth b (nth f lroots []) 0 -> j < nth k (nth f lroots []) 0 -> sconj (mat_at (ovlp f b k) i j) = mat_at (ovlp f k b) j i.

Section C56.
  Context {K : star_ring} {X : Type}.
  Add Ring Kring : (sring K).
  Variables (half : K) (big : K -> bool) (tr : X -> X) (pyset : list nat -> list nat) (lroots : list (list nat)).
  Variables (ovlp : nat -> nat -> nat -> list (list K)) (spin_shuffle : nat -> K) (frag_shuffle : nat -> list nat -> K).
  Variable D : nat -> list nat -> option nat -> nat * list nat -> nat * list nat -> X -> K.
  (** matrix element of the interaction of a table row between two states: operators on its fragments, overlaps on the others *)
  Definition element (lbl : nat) (row : erow) (e e' : list nat) (x : X) : K :=
    let w := weight pyset lroots ovlp spin_shuffle frag_shuffle (e_bra row) (e_ket row) (e_frags row) e e' in
    smul (D lbl (e_frags row) (e_spin row) (e_bra row, e) (e_ket row, e') x) (if big w then w else s0).
  (** all interactions between two rootspaces, in whichever triangle they are listed *)
  Definition reference (tabs : list (list erow)) (r : nat) (e : list nat) (r' : nat) (e' : list nat) (x : X) : K :=
    bsum (combine (seq 0 (length tabs)) tabs) (fun lt => bsum (snd lt) (fun row =>
      if (e_bra row =? r) && (e_ket row =? r') then element (fst lt) row e e' x
      else if (e_bra row =? r') && (e_ket row =? r) then sconj (element (fst lt) row e' e (tr x)) else s0)).

  Variables (ra : list nat) (fa : list (list nat)).
  Let n := length lroots.
  Let nroots := length (hd [] lroots).
  Let col r := column lroots r.
  Hypothesis Hne : lroots <> [].
  Hypothesis Hrect : Forall (fun row => length row = nroots) lroots.
  Hypothesis Hget : get_rootaddr_fragaddr lroots = Ok (ra, fa).
  Hypothesis Hpos : Forall (Forall (fun d => 0 < d)) lroots.
  Hypothesis Hset : forall l, NoDup (pyset l) /\ forall f, In f (pyset l) <-> In f l.
  Hypothesis Hsort : forall fr, pyset (spectators n fr) = spectators n fr.
  Hypothesis Hov : overlaps lroots ovlp.
  Hypothesis Hspin : forall r, sconj (spin_shuffle r) = spin_shuffle r.
  Hypothesis Hfrag : forall r l, sconj (frag_shuffle r l) = frag_shuffle r l.
  Hypothesis Hperm : forall r l l', (forall f, In f l -> f < n) -> Permutation l l' -> frag_shuffle r (pyset l) = frag_shuffle r (pyset l').
  Hypothesis Hbig : forall v, big (sconj v) = big v.
  Hypothesis Hhalf : sadd half half = s1.

  Lemma conj_one : sconj s1 = @s1 K.
  Proof. transitivity (smul (sconj s1) (@s1 K)); [ring|]. rewrite <- (sconj_inv K s1) at 2. rewrite <- sconj_mul. transitivity (sconj (sconj (@s1 K))); [f_equal; ring | apply sconj_inv]. Qed.
  Lemma conj_half : sconj half = half.
  Proof.
    assert (E : sadd (sconj half) (sconj half) = s1) by (rewrite <- sconj_add, Hhalf; apply conj_one).
    transitivity (smul (sconj half) (sadd half half)); [rewrite Hhalf; ring|]. transitivity (smul half (sadd (sconj half) (sconj half))); [ring|]. rewrite E. ring.
  Qed.
  Lemma col_nth f r : f < n -> nth f (col r) 0 = nth r (nth f lroots []) 0.
  Proof. intros H. unfold col, column. now rewrite (nth_map_lt _ _ _ []). Qed.
  Lemma Hpos' r f : r < nroots -> f < n -> 0 < nth f (col r) 0.
  Proof.
    intros Hr Hf. rewrite col_nth by exact Hf. assert (I : In (nth f lroots []) lroots) by (apply nth_In; exact Hf). rewrite Forall_forall in Hpos, Hrect. specialize (Hpos _ I). rewrite Forall_forall in Hpos.
    apply Hpos, nth_In. now rewrite (Hrect _ I).
  Qed.
  Lemma Hov' f b k : f < n -> b < nroots -> k < nroots -> shaped (ovlp f b k) (nth f (col b) 0) (nth f (col k) 0).
  Proof. intros Hf Hb Hk. rewrite !col_nth by exact Hf. now apply Hov. Qed.
  Notation wt := (weight pyset lroots ovlp spin_shuffle frag_shuffle).
  Lemma bprod_ext {A} (l : list A) (g h : A -> K) : (forall a, In a l -> g a = h a) -> bprod l g = bprod l h.
  Proof. induction l; cbn; intros H; auto. rewrite H, IHl; auto. Qed.
  Lemma bprod_conj {A} (l : list A) (g : A -> K) : sconj (bprod l g) = bprod l (fun a => sconj (g a)).
  Proof. induction l; cbn; [apply conj_one|]. now rewrite sconj_mul, IHl. Qed.
  Lemma weight_herm b k fr e e' : b < nroots -> k < nroots -> in_range (col b) e -> in_range (col k) e' -> sconj (wt b k fr e e') = wt k b fr e' e.
  Proof.
    intros Hb Hk R R'. unfold weight. rewrite !sconj_mul, !Hspin, !Hfrag, bprod_conj.
    rewrite (bprod_ext _ (fun f => sconj (mat_at (ovlp f b k) (nth f e 0) (nth f e' 0))) (fun f => mat_at (ovlp f k b) (nth f e' 0) (nth f e 0))); [ring|].
    intros f Hf. apply in_spec in Hf as [Hf _]. apply in_range_nth in R as [L R], R' as [L' R'].
    apply Hov; auto; rewrite <- col_nth by exact Hf; [apply R | apply R']; unfold col; now rewrite col_len.
  Qed.
  Lemma spec_perm fr fr' : Permutation fr fr' -> spectators n fr = spectators n fr'.
  Proof.
    intros P. apply filter_ext. intros f. f_equal. apply Bool.eq_iff_eq_true. rewrite !existsb_exists. split; intros (g & Hg & E); exists g; (split; [|exact E]); [now rewrite <- P | now rewrite P].
  Qed.
  Lemma weight_perm b k fr fr' e e' : (forall f, In f fr -> f < n) -> Permutation fr fr' -> wt b k fr e e' = wt b k fr' e e'.
  Proof. intros F P. unfold weight. fold n. now rewrite (spec_perm _ _ P), (Hperm b _ _ F P), (Hperm k _ _ F P). Qed.
  Definition scr (v : K) : K := if big v then v else s0.
  Lemma scr_conj v : sconj (scr v) = scr (sconj v).
  Proof. unfold scr. rewrite Hbig. destruct (big v); [reflexivity|apply sconj_0]. Qed.
  Notation lst := (listed half big pyset lroots ovlp spin_shuffle frag_shuffle).
  Lemma listed_off b k fr e e' : b <> k -> lst b k fr e e' = scr (wt b k fr e e').
  Proof. intros N. unfold listed, scr. rewrite (proj2 (Nat.eqb_neq _ _) N). cbn zeta. rewrite andb_true_r. reflexivity. Qed.
  Lemma listed_diag b fr e e' : b < nroots -> in_range (col b) e -> in_range (col b) e' -> sadd (lst b b fr e e') (sconj (lst b b fr e' e)) = scr (wt b b fr e e').
  Proof.
    intros Hb R R'. unfold listed. cbn zeta. fold n. rewrite Nat.eqb_refl. cbn [andb]. rewrite <- (weight_herm b b fr e e' Hb Hb R R'), Hbig. set (v := wt b b fr e e').
    set (i := pack (column lroots b) (spectators n fr) e). set (j := pack (column lroots b) (spectators n fr) e'). unfold scr.
    destruct (big v); cbn [andb]; [|rewrite sconj_0; ring]. destruct (Nat.lt_trichotomy i j) as [L|[E|L]].
    - rewrite (proj2 (Nat.leb_gt _ _) L), (proj2 (Nat.leb_le i j)) by lia. rewrite (proj2 (Nat.eqb_neq j i)) by lia. rewrite sconj_inv. ring.
    - rewrite E, Nat.leb_refl, Nat.eqb_refl, sconj_mul, sconj_inv, conj_half. transitivity (smul v (sadd half half)); [ring|]. rewrite Hhalf. ring.
    - rewrite (proj2 (Nat.leb_le j i)) by lia. rewrite (proj2 (Nat.leb_gt i j)) by lia. rewrite (proj2 (Nat.eqb_neq i j)) by lia. rewrite sconj_0. ring.
  Qed.

  Variables (uroot : Z -> Z -> Z) (tabs : list (list erow)).
  Hypothesis Hu : forall r r' f, r < nroots -> r' < nroots -> f < n -> uroot (Z.of_nat r) (Z.of_nat f) = uroot (Z.of_nat r') (Z.of_nat f) -> nth r (nth f lroots []) 0 = nth r' (nth f lroots []) 0.
  Hypothesis HD : local_hermitian lroots tr uroot tabs D.
  Definition rows_ok (t : list erow) : Prop := forall row, In row t -> e_bra row < nroots /\ e_ket row < nroots /\ forall f, In f (e_frags row) -> f < n.

  Section Pair.
    Variables (r r' : nat) (e e' : list nat) (x : X).
    Hypothesis Hr : r < nroots.
    Hypothesis Hr' : r' < nroots.
    Hypothesis R : in_range (col r) e.
    Hypothesis R' : in_range (col r') e'.
    Notation ctr := (contrib half big pyset lroots ovlp spin_shuffle frag_shuffle ra fa D).
    Definition total (lbl : nat) (u : erow) (p : nat * nat) : K :=
      sadd (ctr lbl (e_frags u) (e_spin u) (e_bra u) (e_ket u) p (address lroots r e) (address lroots r' e') x)
        (sconj (ctr lbl (e_frags u) (e_spin u) (e_bra u) (e_ket u) p (address lroots r' e') (address lroots r e) (tr x))).
    Definition row_value (lbl : nat) (row : erow) : K :=
      if (e_bra row =? r) && (e_ket row =? r') then element lbl row e e' x
      else if (e_bra row =? r') && (e_ket row =? r) then sconj (element lbl row e' e (tr x)) else s0.
    Lemma agree_zero fr e0 : (forall f, In f fr -> f < n) -> agree fr e0 (zeroed lroots fr e0).
    Proof. intros H f If. symmetry. apply zeroed_in; [apply H, If | exact If]. Qed.
    Lemma agree_sym fr a b : agree fr a b -> agree fr b a.
    Proof. intros H f If. symmetry. auto. Qed.
    Lemma agree_perm fr fr' a b : Permutation fr fr' -> agree fr a b -> agree fr' a b.
    Proof. intros P H f If. apply H. now rewrite P. Qed.
    Lemma image_value lbl t u row p : nth_error tabs lbl = Some t -> rows_ok t -> In u t -> In row t -> Permutation (e_frags u) (e_frags row) ->
      alike uroot (e_frags u) p (pair_of u) -> p = pair_of row \/ p = (e_ket row, e_bra row) -> total lbl u p = row_value lbl row.
    Proof.
      intros Ht Hok Iu Ir P A Hp. destruct (Hok u Iu) as (Hub & Huk & Huf). destruct (Hok row Ir) as (Hrb & Hrk & Hrf). destruct p as [b1 k1].
      assert (Hb1 : b1 < nroots /\ k1 < nroots) by (unfold pair_of in Hp; destruct Hp as [Hp|Hp]; injection Hp as -> ->; auto). destruct Hb1 as [Hb1 Hk1].
      assert (S1 : forall f, In f (e_frags u) -> nth f (col (e_bra u)) 0 = nth f (col b1) 0).
      { intros f If. rewrite !col_nth by auto. apply Hu; auto. symmetry. exact (proj1 (A f If)). }
      assert (S2 : forall f, In f (e_frags u) -> nth f (col (e_ket u)) 0 = nth f (col k1) 0).
      { intros f If. rewrite !col_nth by auto. apply Hu; auto. symmetry. exact (proj2 (A f If)). }
      unfold total.
      rewrite (contrib_value half big pyset lroots ovlp spin_shuffle frag_shuffle ra fa D Hne Hrect Hget Hpos' Hset Hsort Hov' lbl (e_frags u) (e_spin u) (e_bra u) (e_ket u) b1 k1 r e r' e' x) by auto.
      rewrite (contrib_value half big pyset lroots ovlp spin_shuffle frag_shuffle ra fa D Hne Hrect Hget Hpos' Hset Hsort Hov' lbl (e_frags u) (e_spin u) (e_bra u) (e_ket u) b1 k1 r' e' r e (tr x)) by auto.
      set (z := zeroed lroots (e_frags u)).
      assert (Az : forall e0, agree (e_frags u) e0 (z e0)) by (intros; now apply agree_zero).
      (* the row and the representative have the same elements *)
      assert (A1 : (b1, k1) = pair_of row -> alike uroot (e_frags row) (pair_of row) (pair_of u)).
      { intros <-. intros f If. apply A. now rewrite P. }
      assert (A2 : (b1, k1) = (e_ket row, e_bra row) -> alike uroot (e_frags row) (e_ket row, e_bra row) (pair_of u)).
      { intros <-. intros f If. apply A. now rewrite P. }
      assert (In1 : forall b0 a, in_range (col b0) a -> within lroots b0 (e_frags row) a) by (intros b0 a Ra f If; apply in_range_nth in Ra as [La Ra]; rewrite <- (col_nth f b0) by auto; apply Ra; unfold col; rewrite col_len; auto).
      assert (In2 : forall b0 a, in_range (col b0) a -> (forall f, In f (e_frags u) -> nth f (col (e_bra u)) 0 = nth f (col b0) 0) -> within lroots (e_bra u) (e_frags u) (z a)).
      { intros b0 a Ra S f If. rewrite <- (Az a f If). rewrite <- (col_nth f (e_bra u)) by auto. rewrite (S f If). apply in_range_nth in Ra as [La Ra]. apply Ra. unfold col. rewrite col_len. auto. }
      assert (In3 : forall b0 a, in_range (col b0) a -> (forall f, In f (e_frags u) -> nth f (col (e_ket u)) 0 = nth f (col b0) 0) -> within lroots (e_ket u) (e_frags u) (z a)).
      { intros b0 a Ra S f If. rewrite <- (Az a f If). rewrite <- (col_nth f (e_ket u)) by auto. rewrite (S f If). apply in_range_nth in Ra as [La Ra]. apply Ra. unfold col. rewrite col_len. auto. }
      assert (D1 : forall a a' y, in_range (col (e_bra row)) a -> in_range (col (e_ket row)) a' -> (b1, k1) = pair_of row -> D lbl (e_frags u) (e_spin u) (e_bra u, z a) (e_ket u, z a') y = D lbl (e_frags row) (e_spin row) (e_bra row, a) (e_ket row, a') y).
      { intros a a' y Ra Ra' E. symmetry. exact (proj1 (HD lbl t row u a a' (z a) (z a') y Ht Ir Iu (Permutation_sym P) (In1 _ _ Ra) (In1 _ _ Ra') (agree_perm _ _ _ _ P (Az a)) (agree_perm _ _ _ _ P (Az a'))) (A1 E)). }
      assert (D2 : forall a a' y, in_range (col (e_bra row)) a' -> in_range (col (e_ket row)) a -> (b1, k1) = (e_ket row, e_bra row) -> D lbl (e_frags u) (e_spin u) (e_bra u, z a) (e_ket u, z a') y = sconj (D lbl (e_frags row) (e_spin row) (e_bra row, a') (e_ket row, a) (tr y))).
      { intros a a' y Ra' Ra E. symmetry. exact (proj2 (HD lbl t row u a' a (z a') (z a) y Ht Ir Iu (Permutation_sym P) (In1 _ _ Ra') (In1 _ _ Ra) (agree_perm _ _ _ _ P (Az a')) (agree_perm _ _ _ _ P (Az a))) (A2 E)). }
      assert (D3 : forall a a' y, in_range (col b1) a -> in_range (col k1) a' -> (b1, k1) = (e_ket row, e_bra row) -> sconj (D lbl (e_frags u) (e_spin u) (e_bra u, z a) (e_ket u, z a') (tr y)) = D lbl (e_frags row) (e_spin row) (e_bra row, a') (e_ket row, a) y).
      { intros a a' y Ra Ra' E. refine (proj2 (HD lbl t u row (z a) (z a') a a' y Ht Iu Ir P (In2 _ _ Ra S1) (In3 _ _ Ra' S2) (agree_sym _ _ _ (Az a)) (agree_sym _ _ _ (Az a'))) _). intros f If. destruct (A f If) as [E1 E2]. cbn [fst snd pair_of] in *. injection E as -> ->. split; now symmetry. }
      assert (W : forall a a', wt b1 k1 (e_frags u) a a' = wt b1 k1 (e_frags row) a a') by (intros; now apply weight_perm).
      unfold row_value, element. fold (scr (wt (e_bra row) (e_ket row) (e_frags row) e e')) (scr (wt (e_bra row) (e_ket row) (e_frags row) e' e)).
      destruct (Nat.eq_dec b1 k1) as [Ebk|Nbk].
      - assert (Ep : (b1, k1) = pair_of row /\ (b1, k1) = (e_ket row, e_bra row)) by (unfold pair_of in *; destruct Hp as [Hp|Hp]; injection Hp as H1 H2; split; f_equal; congruence).
        destruct Ep as [Ep Eq]. assert (Eb : e_bra row = b1) by (unfold pair_of in Ep; congruence). assert (Ek : e_ket row = b1) by congruence. rewrite Eb, Ek in *. subst k1.
        destruct (Nat.eqb_spec b1 r) as [E1|N1]; destruct (Nat.eqb_spec b1 r') as [E2|N2]; cbn [andb]; try (rewrite sconj_0; ring).
        subst r r'. rewrite sconj_mul, (D3 e' e x ltac:(congruence) ltac:(congruence) Eq), (D1 e e' x ltac:(congruence) ltac:(congruence) Ep). rewrite ?Eb, ?Ek. rewrite <- W. rewrite <- listed_diag by auto. ring.
      - assert (N : r = b1 -> r' = k1 -> (b1 =? r') = false /\ (k1 =? r) = false) by (intros -> ->; split; apply Nat.eqb_neq; auto).
        rewrite !listed_off by exact Nbk. rewrite !W. destruct Hp as [Ep|Ep]; pose proof Ep as Ep'; unfold pair_of in Ep'; injection Ep' as Eb Ek; rewrite <- Eb, <- Ek.
        + destruct (Nat.eqb_spec b1 r) as [E1|N1]; [destruct (Nat.eqb_spec k1 r') as [E2|N2]|]; cbn [andb].
          * subst r r'. rewrite (proj2 (Nat.eqb_neq b1 k1) Nbk). cbn [andb]. rewrite sconj_0, (D1 e e' x ltac:(congruence) ltac:(congruence) Ep). rewrite <- Eb, <- Ek. ring.
          * destruct (Nat.eqb_spec b1 r') as [E3|N3]; destruct (Nat.eqb_spec k1 r) as [E4|N4]; cbn [andb]; try (rewrite sconj_0; ring). exfalso. subst. auto.
          * destruct (Nat.eqb_spec b1 r') as [E3|N3]; destruct (Nat.eqb_spec k1 r) as [E4|N4]; cbn [andb]; try (rewrite sconj_0; ring). rewrite (D1 e' e (tr x) ltac:(congruence) ltac:(congruence) Ep). rewrite <- Eb, <- Ek. ring.
        + destruct (Nat.eqb_spec b1 r) as [E1|N1]; [destruct (Nat.eqb_spec k1 r') as [E2|N2]|]; cbn [andb].
          * subst r r'. rewrite (proj2 (Nat.eqb_neq b1 k1) Nbk). rewrite (proj2 (Nat.eqb_neq k1 b1) (not_eq_sym Nbk)). cbn [andb]. rewrite ?Nat.eqb_refl. cbn [andb]. rewrite sconj_0, (D2 e e' x ltac:(congruence) ltac:(congruence) Ep), sconj_mul, scr_conj, weight_herm by auto. rewrite <- Eb, <- Ek. ring.
          * rewrite (proj2 (Nat.eqb_neq k1 r)) by congruence. rewrite andb_false_r. cbn [andb]. rewrite sconj_0; ring.
          * destruct (Nat.eqb_spec b1 r') as [E3|N3]; destruct (Nat.eqb_spec k1 r) as [E4|N4]; cbn [andb]; try (rewrite sconj_0; destruct (k1 =? r'); cbn [andb]; ring).
            subst r r'. rewrite sconj_mul, (D3 e' e x ltac:(congruence) ltac:(congruence) Ep), scr_conj, weight_herm by auto. rewrite <- Eb, <- Ek. ring.
    Qed.

    Definition keyof (row : erow) : list Z * (nat * nat) := (sort_z (map Z.of_nat (e_frags row)), up_to_swap true (e_bra row, e_ket row)).
    Lemma key_dec (a b : list Z * (nat * nat)) : {a = b} + {a <> b}.
    Proof. decide equality; [decide equality; apply Nat.eq_dec | apply (list_eq_dec Z.eq_dec)]. Qed.
    Lemma sorted_frags_perm fr fr' : sort_z (map Z.of_nat fr) = sort_z (map Z.of_nat fr') -> Permutation fr fr'.
    Proof.
      rewrite <- !bubblesort_sort_z. intros E. assert (P : Permutation (map Z.of_nat fr) (map Z.of_nat fr')).
      { rewrite <- (proj1 (bubblesort_sorts (map Z.of_nat fr))), <- (proj1 (bubblesort_sorts (map Z.of_nat fr'))), E. reflexivity. }
      apply (Permutation_map Z.to_nat) in P. rewrite !map_map in P.
      assert (I : forall l, map (fun f => Z.to_nat (Z.of_nat f)) l = l) by (intros l; rewrite <- (map_id l) at 2; apply map_ext; intros; apply Nat2Z.id). now rewrite !I in P.
    Qed.
    Lemma swap_cases (p q : nat * nat) : up_to_swap true p = up_to_swap true q -> p = q \/ p = (snd q, fst q).
    Proof. destruct p as [a b], q as [c d]. unfold up_to_swap. cbn. intros E. injection E as E1 E2. destruct (Nat.eq_dec a c); [left | right]; f_equal; lia. Qed.
    Lemma alike_refl fr p : alike uroot fr p p.
    Proof. intros f _. auto. Qed.
    Lemma table_total lbl t keep : nth_error tabs lbl = Some t -> rows_ok t -> (exists m, forall row, In row t -> length (e_frags row) = m) -> collision_free uroot (filter keep t) ->
      let found := find_unique_exc uroot true (filter keep t) in
      forall im, snd found = map (fun u => (key_of u, im u)) (fst found) ->
      bsum (fst found) (fun u => bsum (im u) (fun p => total lbl u p)) = bsum (filter keep t) (row_value lbl).
    Proof.
      intros Ht Hok (m & Hm) Hc found im Him. set (exc := filter keep t) in *.
      assert (Hn : forall row, In row exc -> length (e_frags row) = m) by (intros row Hrow; apply Hm; now apply filter_In in Hrow).
      destruct (C55_images uroot true exc m Hn Hc) as (I1 & I2 & I3 & I4). fold found in I1, I2, I3, I4.
      set (V := fun q => match find (fun row => if key_dec (keyof row) q then true else false) exc with Some row => row_value lbl row | None => s0 end).
      assert (It : forall row, In row exc -> In row t) by (intros row Hrow; now apply filter_In in Hrow).
      assert (Tv : forall u row p, In u exc -> In row exc -> alike uroot (e_frags u) p (pair_of u) -> (sort_z (map Z.of_nat (e_frags u)), up_to_swap true p) = keyof row -> total lbl u p = row_value lbl row).
      { intros u row p Hu0 Hrow A E. unfold keyof in E. assert (E1 := f_equal fst E). assert (E2 := f_equal snd E). cbn [fst snd] in E1, E2. apply (image_value lbl t); auto; [now apply sorted_frags_perm | exact (swap_cases _ _ E2)]. }
      assert (Vr : forall row, In row exc -> V (keyof row) = row_value lbl row).
      { intros row Hrow. unfold V. destruct (find _ exc) as [row'|] eqn:E.
        - apply find_some in E as [Hrow' E]. destruct (key_dec (keyof row') (keyof row)) as [Ek|]; [|discriminate].
          rewrite <- (Tv row row' (pair_of row) Hrow Hrow' (alike_refl _ _)) by (symmetry; exact Ek). exact (Tv row row (pair_of row) Hrow Hrow (alike_refl _ _) eq_refl).
        - apply (find_none _ _ E) in Hrow. destruct (key_dec (keyof row) (keyof row)); [discriminate|contradiction]. }
      transitivity (bsum (flat_map (fun en => map (fun p => (sort_z (map Z.of_nat (snd (fst en))), up_to_swap true p)) (snd en)) (snd found)) V).
      - rewrite bsum_flat_map, Him, bsum_map. apply bsum_ext. intros u Hu0. cbn [fst snd key_of]. rewrite bsum_map. apply bsum_ext. intros p Hp.
        assert (Hen : In (key_of u, im u) (snd found)) by (rewrite Him; now apply (in_map (fun u => (key_of u, im u)))).
        assert (A : alike uroot (e_frags u) p (pair_of u)) by exact (I4 _ _ _ _ _ Hen Hp).
        assert (J : In (sort_z (map Z.of_nat (e_frags u)), up_to_swap true p) (map keyof exc)).
        { apply (Permutation_in _ I3). apply in_flat_map. exists (key_of u, im u). split; [exact Hen|]. cbn [fst snd key_of]. now apply (in_map (fun p => (sort_z (map Z.of_nat (e_frags u)), up_to_swap true p))). }
        apply in_map_iff in J as (row & E & Hrow). rewrite <- E, Vr by exact Hrow. apply Tv; auto.
      - rewrite (bsum_perm K _ _ V I3), bsum_map. apply bsum_ext. intros row Hrow. apply Vr, Hrow.
    Qed.
  End Pair.

  Lemma loop_tables_sum dict (im : erow -> list (nat * nat)) : forall (utabs : list (list erow)) lbl t, (forall l u, In l utabs -> In u l -> get_key (key_of u) dict = Some (im u)) ->
    exists t', loop_tables half big pyset lroots ovlp spin_shuffle frag_shuffle ra fa D dict lbl utabs t = Ok t' /\
      forall A B x, t' A B x = sadd (t A B x) (bsum (combine (seq lbl (length utabs)) utabs) (fun lt => bsum (snd lt) (fun u => bsum (im u) (fun p =>
        contrib half big pyset lroots ovlp spin_shuffle frag_shuffle ra fa D (fst lt) (e_frags u) (e_spin u) (e_bra u) (e_ket u) p A B x)))).
  Proof.
    induction utabs as [|l utabs IH]; intros lbl t H; cbn [loop_tables length seq combine bsum].
    - exists t. split; [reflexivity|]. intros. ring.
    - destruct (loop_rows_sum half big pyset lroots ovlp spin_shuffle frag_shuffle ra fa D dict lbl l im (fun u Hu => H l u (or_introl eq_refl) Hu) t) as (t1 & E1 & V1). rewrite E1. cbn [bind].
      destruct (IH (S lbl) t1 (fun l' u Hl Hu => H l' u (or_intror Hl) Hu)) as (t2 & E2 & V2). exists t2. split; [exact E2|]. intros. rewrite V2, V1. cbn [fst snd]. ring.
  Qed.
  Lemma bsum_combine_map {A B} (F : A -> B) (g : nat * B -> K) : forall (l : list A) k, bsum (combine (seq k (length l)) (map F l)) g = bsum (combine (seq k (length l)) l) (fun lt => g (fst lt, F (snd lt))).
  Proof. induction l as [|a l IH]; intros k; cbn; [reflexivity|]. now rewrite IH. Qed.
  Lemma in_combine_seq {A} (l : list A) : forall k i a, In (i, a) (combine (seq k (length l)) l) -> k <= i /\ nth_error l (i - k) = Some a.
  Proof.
    induction l as [|b l IH]; intros k i a; cbn; [intros []|]. intros [E|H]; [injection E as -> ->; rewrite Nat.sub_diag; auto|].
    apply IH in H as [H1 H2]. split; [lia|]. replace (i - k) with (S (i - S k)) by lia. exact H2.
  Qed.
  Lemma table_rows nelec scai t row : admissible n nelec scai -> NoDup scai -> In t (interaction_tables (make_exc_tables n (hopping_index nelec) scai)) -> In row t ->
    In (pair_of row) scai /\ forall f, In f (e_frags row) -> f < n.
  Proof.
    intros A N Ht Hr. destruct (C54_spectators _ _ _ A N) as (_ & S1 & S2 & S3). destruct (C54_rows _ _ _ A) as (R0 & R1 & R2 & R3 & R4).
    pose proof (C54_each_once _ _ _ A) as P. cbv zeta in P. rewrite !map_app in P. set (T := make_exc_tables n (hopping_index nelec) scai) in *.
    assert (Q : forall r0, In r0 (t_null T) \/ In r0 (t_1c T) \/ In r0 (t_1s T) \/ In r0 (t_1s1c T) \/ In r0 (t_2c T) -> In (pair_of r0) scai).
    { intros r0 H. apply (Permutation_in _ (Permutation_sym P)). rewrite !in_app_iff. destruct H as [H|[H|[H|[H|H]]]]; apply (in_map pair_of) in H; tauto. }
    cbn in Ht. destruct Ht as [<-|[<-|[<-|[<-|[<-|[<-|[<-|[]]]]]]]]; destruct row as [b k fr sp'].
    - apply S1 in Hr as (f & -> & Hf & Hr). split; [exact (Q _ (or_introl Hr))|]. intros g [<-|[]]. exact Hf.
    - apply S2 in Hr as (i & j & -> & Hf & Hr). split; [exact (Q _ (or_introl Hr))|]. cbn. intros g [<-|[<-|[]]]; lia.
    - split; [apply Q; tauto|]. apply R1 in Hr as (i & j & s & E & _ & Hi & Hj & _). cbn in E. subst fr. cbn. intros g [<-|[<-|[]]]; assumption.
    - apply S3 in Hr as (i & j & f & -> & Hf & _ & _ & Hr). split; [exact (Q _ (or_intror (or_introl Hr)))|]. apply R1 in Hr as (i' & j' & s & E & _ & Hi & Hj & _). cbn in E. injection E as <- <-. cbn. intros g [<-|[<-|[<-|[]]]]; assumption.
    - split; [apply Q; tauto|]. apply R2 in Hr as (i & j & E & Hi & Hj & _). cbn in E. subst fr. cbn. intros g [<-|[<-|[]]]; assumption.
    - split; [apply Q; tauto|]. apply R3 in Hr as (i & j & l & s & E & _ & Hi & Hj & Hl & _). cbn in E. subst fr. cbn. intros g [<-|[<-|[<-|[]]]]; assumption.
    - split; [apply Q; tauto|]. apply R4 in Hr as (i & j & l & m & s & E & _ & Hi & Hj & Hl & Hm & _). cbn in E. subst fr. cbn. intros g [<-|[<-|[<-|[<-|[]]]]]; assumption.
  Qed.

  Lemma assembled nelec scai keep : admissible n nelec scai -> NoDup scai -> (forall p, In p scai -> fst p < nroots /\ snd p < nroots) ->
    tabs = interaction_tables (make_exc_tables n (hopping_index nelec) scai) -> (forall t, In t tabs -> collision_free uroot (filter keep t)) ->
    let ud := mask_exc_tables uroot true keep tabs in
    exists T, crunch_all half big tr pyset lroots ovlp spin_shuffle frag_shuffle ra fa D (snd ud) (fst ud) = Ok T /\
      forall r e r' e' x, r < nroots -> r' < nroots -> in_range (dims_of lroots r) e -> in_range (dims_of lroots r') e' ->
        T (states_before lroots r + colmajor (dims_of lroots r) e) (states_before lroots r' + colmajor (dims_of lroots r') e') x = reference (map (filter keep) tabs) r e r' e' x.
  Proof.
    intros A N Hs Et Hc ud. set (dict := snd ud). set (im := fun u => match get_key (key_of u) dict with Some l => l | None => [] end).
    assert (Hl : forall t, In t tabs -> let found := find_unique_exc uroot true (filter keep t) in
       (forall u, In u (fst found) -> get_key (key_of u) dict = Some (im u)) /\ snd found = map (fun u => (key_of u, im u)) (fst found)).
    { intros t Ht found. destruct (C55_lookup n nelec scai uroot true keep A N) as [_ L]. rewrite <- Et in L. specialize (L t Ht). cbn zeta in L. fold found in L. fold ud in L. fold dict in L. split.
      - intros u Hu0. destruct (In_nth _ _ dflt Hu0) as (i & Hi & Ei). destruct (L i Hi) as (l & _ & E). rewrite Ei in E. unfold im. now rewrite E.
      - assert (Ln : length (snd found) = length (fst found)). { pose proof (uexc_fst uroot true (filter keep t)) as E. fold found in E. apply (f_equal (@length _)) in E. now rewrite !map_length in E. }
        apply list_ext. intros i. destruct (Nat.lt_ge_cases i (length (fst found))) as [Hi|Hi].
        + destruct (L i Hi) as (l & E1 & E2). rewrite E1. rewrite nth_error_map, (nth_error_nth' _ dflt Hi). cbn [option_map]. unfold im. now rewrite E2.
        + rewrite (proj2 (nth_error_None _ _)) by lia. symmetry. apply nth_error_None. now rewrite map_length. }
    assert (Eu : fst ud = map (fun t => fst (find_unique_exc uroot true (filter keep t))) tabs) by (unfold ud, mask_exc_tables; cbn [fst]; now rewrite map_map).
    destruct (loop_tables_sum dict im (fst ud) 0 (fun _ _ _ => s0)) as (T & ET & VT).
    { intros l u Hl0 Hu0. rewrite Eu in Hl0. apply in_map_iff in Hl0 as (t & <- & Ht). now apply (Hl t Ht). }
    unfold crunch_all. fold dict. rewrite ET. cbn [bind]. eexists. split; [reflexivity|]. intros r e r' e' x Hr Hr' R R'. unfold add_transpose. rewrite !VT.
    fold (address lroots r e). fold (address lroots r' e').
    rewrite Eu, map_length, !bsum_combine_map. cbn [fst snd]. rewrite sconj_add, sconj_0, bsum_conj.
    transitivity (bsum (combine (seq 0 (length tabs)) tabs) (fun lt => bsum (filter keep (snd lt)) (row_value r r' e e' x (fst lt)))).
    2:{ unfold reference. rewrite map_length, bsum_combine_map. reflexivity. }
    match goal with |- sadd (sadd _ ?a) (sadd _ ?b) = _ => transitivity (sadd a b); [ring|] end. rewrite <- bsum_add. apply bsum_ext. intros [lbl t] Hlt. cbn [fst snd].
    apply in_combine_seq in Hlt as [_ Hlt]. rewrite Nat.sub_0_r in Hlt. assert (Ht : In t tabs) by exact (nth_error_In _ _ Hlt).
    assert (Hok : rows_ok t). { intros row Hrow. rewrite Et in Ht. destruct (table_rows nelec scai t row A N Ht Hrow) as [P F]. destruct (Hs _ P). auto. }
    rewrite <- (table_total r r' e e' x Hr Hr' R R' lbl t keep Hlt Hok) with (im := im); [|rewrite Et in Ht; exact (table_len _ _ _ _ A N Ht) | exact (Hc t Ht) | exact (proj2 (Hl t Ht))].
    rewrite bsum_conj, <- bsum_add. apply bsum_ext. intros u _. rewrite bsum_conj, <- bsum_add. apply bsum_ext. intros p _. reflexivity.
  Qed.
End C56.

(** The unique interactions, expanded through their images, spectators and transposition, give between any two states the sum of the
    matrix elements of all interactions between their rootspaces: each once, conjugated and transposed when the table lists the pair
    the other way round.  Conditions: a rectangular table of positive numbers of local states; list (set (...)) keeps the elements and
    the order of the spectators; hermitian overlaps; real signs that do not depend on the order of the fragments; a screening that treats
    a number and its conjugate alike; equal unique roots have equally many states; no fingerprint collision. *)
Theorem C56_assembled : forall (K : star_ring) (X : Type) (half : K) (big : K -> bool) (tr : X -> X) (pyset : list nat -> list nat) (lroots : list (list nat))
    (ovlp : nat -> nat -> nat -> list (list K)) (spin_shuffle : nat -> K) (frag_shuffle : nat -> list nat -> K)
    (D : nat -> list nat -> option nat -> nat * list nat -> nat * list nat -> X -> K) ra fa
    (uroot : Z -> Z -> Z) (nelec : nat -> list (Z * Z)) (scai : list (nat * nat)) (keep : erow -> bool),
  let n := length lroots in let nroots := length (hd [] lroots) in
  let tabs := interaction_tables (make_exc_tables n (hopping_index nelec) scai) in
  lroots <> [] -> Forall (fun row => length row = nroots) lroots -> Forall (Forall (fun d => 0 < d)) lroots -> get_rootaddr_fragaddr lroots = Ok (ra, fa) ->
  (forall l, NoDup (pyset l) /\ forall f, In f (pyset l) <-> In f l) -> (forall fr, pyset (spectators n fr) = spectators n fr) ->
  overlaps lroots ovlp -> (forall r, sconj (spin_shuffle r) = spin_shuffle r) -> (forall r l, sconj (frag_shuffle r l) = frag_shuffle r l) ->
  (forall r l l', (forall f, In f l -> f < n) -> Permutation l l' -> frag_shuffle r (pyset l) = frag_shuffle r (pyset l')) -> (forall v, big (sconj v) = big v) -> sadd half half = s1 ->
  (forall r r' f, r < nroots -> r' < nroots -> f < n -> uroot (Z.of_nat r) (Z.of_nat f) = uroot (Z.of_nat r') (Z.of_nat f) -> nth r (nth f lroots []) 0 = nth r' (nth f lroots []) 0) ->
  local_hermitian lroots tr uroot tabs D ->
  admissible n nelec scai -> NoDup scai -> (forall p, In p scai -> fst p < nroots /\ snd p < nroots) -> (forall t, In t tabs -> collision_free uroot (filter keep t)) ->
  let ud := mask_exc_tables uroot true keep tabs in
  exists T, crunch_all half big tr pyset lroots ovlp spin_shuffle frag_shuffle ra fa D (snd ud) (fst ud) = Ok T /\
    forall r e r' e' x, r < nroots -> r' < nroots -> in_range (dims_of lroots r) e -> in_range (dims_of lroots r') e' ->
      T (states_before lroots r + colmajor (dims_of lroots r) e) (states_before lroots r' + colmajor (dims_of lroots r') e') x =
      reference big tr pyset lroots ovlp spin_shuffle frag_shuffle D (map (filter keep) tabs) r e r' e' x.
Proof.
  intros K X half big tr pyset lroots ovlp spin_shuffle frag_shuffle D ra fa uroot nelec scai keep n nroots tabs H1 H2 H3 H4 H5 H6 H7 H8 H9 H10 H11 H12 H13 H14 H15 H16 H17 H18 ud.
  exact (assembled half big tr pyset lroots ovlp spin_shuffle frag_shuffle D ra fa H1 H2 H4 H3 H5 H6 H7 H8 H9 H10 H11 H12 uroot tabs H13 H14 nelec scai keep H15 H16 H17 eq_refl H18).
Qed.
Print Assumptions C56_assembled.

(** Whatever the inputs, what is returned is hermitian. *)
Theorem C56_hermitian : forall (K : star_ring) (X : Type) (half : K) big (tr : X -> X) pyset lroots ovlp spin_shuffle frag_shuffle ra fa D dict utabs T,
  crunch_all half big tr pyset lroots ovlp spin_shuffle frag_shuffle ra fa D dict utabs = Ok T -> (forall y, tr (tr y) = y) ->
  forall b k x, sconj (T k b (tr x)) = T b k x.
Proof.
  intros K X half big tr pyset lroots ovlp spin_shuffle frag_shuffle ra fa D dict utabs T E Htr b k x. unfold crunch_all in E. destruct (loop_tables _ _ _ _ _ _ _ _ _ _ _ _ _ _) as [t|e]; [|discriminate].
  cbn [bind] in E. injection E as <-. unfold add_transpose. rewrite sconj_add, sconj_inv, Htr. apply (Radd_comm (sring K)).
Qed.
Print Assumptions C56_hermitian.

(** Four rootspaces of three fragments, as in the example of C55: the electron hop is crunched once and has four images, one of them
    transposed; local states, overlaps, signs and matrix elements are all different. *)
Definition Qs : star_ring := mkStar Qc (Q2Qc 0) (Q2Qc 1) Qcplus Qcmult Qcminus Qcopp Qcrt (fun x => x) (fun _ _ => eq_refl) (fun _ _ => eq_refl) (fun _ => eq_refl).
Definition zq (z : Z) : Qs := Q2Qc (z # 1).
Definition hq : Qs := Q2Qc (1 # 2).
Definition xu (r f : nat) : Z := ex_uroot (Z.of_nat r) (Z.of_nat f).
Definition x_nelec (r : nat) : list (Z * Z) := [(1 - xu r 0, 1); (1 + xu r 1, 1); (1, 0)]%Z.
Definition x_lroots : list (list nat) := [[2; 1; 1; 2]; [1; 2; 2; 1]; [2; 2; 1; 1]].
Definition x_ovlp (f b k : nat) : list (list Qs) := map (fun i => map (fun j => zq ((Z.of_nat i + 1 + xu b f) * (Z.of_nat j + 1 + xu k f) + (if i =? j then 7 else 0))) (seq 0 (nth k (nth f x_lroots []) 0))) (seq 0 (nth b (nth f x_lroots []) 0)).
Definition x_sign (r : nat) : Qs := zq (if Nat.odd r then -1 else 1).
Definition x_fsign (r : nat) (l : list nat) : Qs := zq (if Nat.odd (r * length l) then -1 else 1).
Definition x_loc (fr : list nat) (s : nat * list nat) : Z := fold_right Z.add 0%Z (map (fun f => (Z.of_nat f + 1) * (1 + xu (fst s) f + 2 * Z.of_nat (nth f (snd s) 0%nat)))%Z fr).
Definition x_D (lbl : nat) (fr : list nat) (_ : option nat) (b k : nat * list nat) (x : nat * nat) : Qs :=
  zq ((Z.of_nat lbl + 1) * (x_loc fr b * (Z.of_nat (fst x) + 2) + x_loc fr k * (Z.of_nat (snd x) + 2)))%Z.
Definition x_tr (x : nat * nat) : nat * nat := (snd x, fst x).
Definition x_set (l : list nat) : list nat := filter (fun f => existsb (Nat.eqb f) l) (seq 0 3).
Definition x_big (v : Qs) : bool := if Qc_eq_dec v (Q2Qc 0) then false else true.
Definition x_scai : list (nat * nat) := lower true (list_prod (seq 0 4) (seq 0 4)).
Definition x_tabs := interaction_tables (make_exc_tables 3 (hopping_index x_nelec) x_scai).
Definition x_ud := mask_exc_tables ex_uroot true (fun _ => true) x_tabs.
Definition x_run := match get_rootaddr_fragaddr x_lroots with Raise e => Raise e | Ok (ra, fa) => crunch_all hq x_big x_tr x_set x_lroots x_ovlp x_sign x_fsign ra fa x_D (snd x_ud) (fst x_ud) end.
Definition x_states : list (nat * list nat) := flat_map (fun r => flat_map (fun c => flat_map (fun b => map (fun a => (r, [a; b; c])) (seq 0 (nth r (nth 0 x_lroots []) 0))) (seq 0 (nth r (nth 1 x_lroots []) 0))) (seq 0 (nth r (nth 2 x_lroots []) 0))) (seq 0 4).
Example C56_example :
  match x_run with Raise _ => False | Ok T =>
    map (fun t => length t) x_tabs = [18; 18; 4; 4; 0; 0; 0] /\ map (fun t => length t) (fst x_ud) = [7; 14; 1; 4; 0; 0; 0] /\
    length x_states = 12 /\
    forallb (fun IJ => let '(i, j) := IJ in if Qc_eq_dec (T i j (1, 3)) (reference x_big x_tr x_set x_lroots x_ovlp x_sign x_fsign x_D x_tabs (fst (nth i x_states (0, []))) (snd (nth i x_states (0, []))) (fst (nth j x_states (0, []))) (snd (nth j x_states (0, []))) (1, 3)) then true else false)
      (list_prod (seq 0 12) (seq 0 12)) = true /\
    map (fun IJ => this (T (fst IJ) (snd IJ) (1, 3))) [(0, 0); (1, 2); (2, 1); (0, 10); (5, 1); (11, 4); (4, 9)]
      = [4608; 2640; 2352; 2160; -1004; 1527; 4700]%Q end.
Proof. vm_compute. repeat split. Qed.
