(** Lemmas about crunch_ovlp and the assembly of its blocks. *)
From Coq Require Import List ZArith Bool Arith Lia.
From Verif Require Import Base BaseFacts Star AddrModel AddrFacts AddrSpec AddrProofs ExcModel UexcModel StdmModel StdmFacts OvlpModel.
Import ListNotations.
Local Open Scope nat_scope.

Section Blocks.
  Context {K : star_ring}.
  Add Ring Kring : (sring K).
  Lemma scale_shaped c (a : list (list K)) p q : shaped a p q -> shaped (scale c a) p q.
  Proof. intros [L H]. unfold scale. split; [now rewrite map_length|]. intros row I. apply in_map_iff in I as (r & <- & I). rewrite map_length. auto. Qed.
  Lemma scale_at c (a : list (list K)) p q i j : shaped a p q -> i < p -> j < q -> mat_at (scale c a) i j = smul c (mat_at a i j).
  Proof.
    intros Sa Hi Hj. pose proof Sa as [L _]. unfold mat_at, scale. rewrite (nth_map_lt _ _ _ []) by lia. rewrite (nth_map_lt _ _ _ s0) by (rewrite (shaped_row a p q) by assumption; exact Hj). reflexivity.
  Qed.
  Lemma chain (ov : nat -> list (list K)) (cb ck : list nat) z c : length cb = length ck -> (forall f, f < length cb -> shaped (ov f) (nth f cb 0) (nth f ck 0)) -> z < length cb ->
    forall l, (forall f, In f l -> f < length cb) ->
    let o := fold_left (fun o f => kron o (ov f)) (rev l) (scale c (ov z)) in
    shaped o (prodN (sel cb (l ++ [z]))) (prodN (sel ck (l ++ [z]))) /\
    forall e e', in_range cb e -> in_range ck e' ->
      mat_at o (pack cb (l ++ [z]) e) (pack ck (l ++ [z]) e') = smul c (bprod (l ++ [z]) (fun f => mat_at (ov f) (nth f e 0) (nth f e' 0))).
  Proof.
    intros Lc Hs Hz l. induction l as [|f l IH]; intros Hl.
    - cbn [rev fold_left app sel map prodN bprod]. rewrite !Nat.mul_1_r. split; [apply scale_shaped, Hs, Hz|]. intros e e' R R'. apply in_range_nth in R as [_ He], R' as [_ He'].
      unfold pack. cbn [sel map colmajor]. rewrite !Nat.mul_0_r, !Nat.add_0_r. rewrite (scale_at c _ _ _ _ _ (Hs z Hz)) by (try apply He; try apply He'; lia). ring.
    - destruct IH as [S1 H1]; [intros; apply Hl; now right|]. cbn [rev]. rewrite fold_left_app. cbn [fold_left]. set (o := fold_left (fun o f => kron o (ov f)) (rev l) (scale c (ov z))) in *.
      assert (Hf : f < length cb) by (apply Hl; now left). pose proof (Hs f Hf) as S2. cbn [app sel map prodN]. split.
      + rewrite (Nat.mul_comm (nth f cb 0)), (Nat.mul_comm (nth f ck 0)). now apply kron_shaped.
      + intros e e' R R'. pose proof R as R0. pose proof R' as R0'. apply in_range_nth in R0 as [Le He], R0' as [Le' He'].
        assert (Hlz : forall g, In g (l ++ [z]) -> g < length cb) by (intros g I; apply in_app_or in I as [I|[<-|[]]]; [apply Hl; now right|exact Hz]).
        assert (P1 : pack cb (f :: l ++ [z]) e = pack cb (l ++ [z]) e * nth f cb 0 + nth f e 0) by (unfold pack, sel; cbn [map colmajor]; apply Nat.add_comm || (rewrite Nat.add_comm; f_equal; apply Nat.mul_comm)).
        assert (P2 : pack ck (f :: l ++ [z]) e' = pack ck (l ++ [z]) e' * nth f ck 0 + nth f e' 0) by (unfold pack, sel; cbn [map colmajor]; apply Nat.add_comm || (rewrite Nat.add_comm; f_equal; apply Nat.mul_comm)).
        rewrite P1, P2. rewrite (kron_at _ _ _ _ _ _ _ _ _ _ S1 S2); [|apply pack_lt; auto|apply pack_lt; auto; intros; rewrite <- Lc; auto|apply He; lia|apply He'; lia].
        rewrite H1 by auto. cbn [bprod]. ring.
  Qed.

  Variable half : K.
  Variable lroots : list (list nat).
  Variable ovlp : nat -> nat -> nat -> list (list K).
  Variable sh : nat -> K.
  Hypothesis Hn : 0 < length lroots.
  Notation col := (column lroots).
  Lemma seq_last n : 0 < n -> seq 0 (n - 1) ++ [n - 1] = seq 0 n.
  Proof. intros H. destruct n as [|n]; [lia|]. rewrite Nat.sub_succ, Nat.sub_0_r. symmetry. apply seq_S. Qed.
  Lemma sel_all (l : list nat) : sel l (seq 0 (length l)) = l.
  Proof. unfold sel. apply (nth_ext _ _ 0 0); [now rewrite map_length, seq_length|]. intros i Hi. rewrite map_length, seq_length in Hi. now rewrite (nth_map_seq0 (fun f => nth f l 0) (length l) i) by exact Hi. Qed.
  Lemma pack_all (c e : list nat) : length e = length c -> pack c (seq 0 (length c)) e = colmajor c e.
  Proof. intros L. unfold pack. rewrite sel_all. rewrite <- L, sel_all. reflexivity. Qed.
  Lemma crunch_at b k : (forall f, f < length lroots -> shaped (ovlp f b k) (nth f (col b) 0) (nth f (col k) 0)) ->
    shaped (crunch_ovlp half lroots ovlp sh b k) (prodN (col b)) (prodN (col k)) /\
    forall e e', in_range (col b) e -> in_range (col k) e' -> mat_at (crunch_ovlp half lroots ovlp sh b k) (colmajor (col b) e) (colmajor (col k) e') =
      smul (smul (sh b) (sh k)) (smul (if b =? k then half else s1) (bprod (seq 0 (length lroots)) (fun f => mat_at (ovlp f b k) (nth f e 0) (nth f e' 0)))).
  Proof.
    intros Hs. assert (Lb : forall r, length (col r) = length lroots) by (intros r; apply map_length).
    destruct (chain (fun f => ovlp f b k) (col b) (col k) (length lroots - 1) (if b =? k then half else s1)) with (l := seq 0 (length lroots - 1)) as [Sc Hc].
    - now rewrite !Lb.
    - intros f Hf. rewrite Lb in Hf. auto.
    - rewrite Lb. lia.
    - intros f I. rewrite Lb. apply in_seq in I. lia.
    - rewrite (seq_last _ Hn) in *. assert (Eb : sel (col b) (seq 0 (length lroots)) = col b) by (rewrite <- (Lb b); apply sel_all). assert (Ek : sel (col k) (seq 0 (length lroots)) = col k) by (rewrite <- (Lb k); apply sel_all).
      rewrite Eb, Ek in Sc. unfold crunch_ovlp. cbv zeta. split; [now apply scale_shaped, scale_shaped|]. intros e e' R R'.
      pose proof R as R0. pose proof R' as R0'. apply in_range_nth in R0 as [Le _], R0' as [Le' _]. specialize (Hc e e' R R').
      assert (Pb : pack (col b) (seq 0 (length lroots)) e = colmajor (col b) e) by (rewrite <- (Lb b); apply pack_all, Le).
      assert (Pk : pack (col k) (seq 0 (length lroots)) e' = colmajor (col k) e') by (rewrite <- (Lb k); apply pack_all, Le').
      rewrite Pb, Pk in Hc.
      pose proof (colmajor_lt _ _ R) as B1. pose proof (colmajor_lt _ _ R') as B2.
      rewrite (scale_at _ _ _ _ _ _ (scale_shaped _ _ _ _ Sc)) by assumption. rewrite (scale_at _ _ _ _ _ _ Sc) by assumption. rewrite Hc. ring.
  Qed.

  Definition within (i : nat) (o : nat * nat) : Prop := fst o <= i < snd o.
  Lemma within_b i (o : nat * nat) : (fst o <=? i) && (i <? snd o) = true <-> within i o.
  Proof. unfold within. rewrite andb_true_iff, Nat.leb_le, Nat.ltb_lt. tauto. Qed.
  Lemma is_shape_ok (a : list (list K)) p q : shaped a p q -> is_shape a p q = true.
  Proof. intros [L H]. unfold is_shape. rewrite L, Nat.eqb_refl. apply forallb_forall. intros row I. apply Nat.eqb_eq. auto. Qed.
  Notation crunch := (crunch_ovlp half lroots ovlp sh).
  Lemma blocks_ok offs l : (forall b k, In (b, k) l -> shaped (crunch b k) (snd (offs b) - fst (offs b)) (snd (offs k) - fst (offs k))) ->
    forall m, exists m', put_blocks half lroots ovlp sh offs l m = Ok m' /\ forall x y,
      ((forall b k, In (b, k) l -> ~ (within x (offs b) /\ within y (offs k))) -> m' x y = m x y) /\
      (forall b k, In (b, k) l -> within x (offs b) -> within y (offs k) -> (forall b' k', In (b', k') l -> within x (offs b') -> within y (offs k') -> b' = b /\ k' = k) ->
        m' x y = mat_at (crunch b k) (x - fst (offs b)) (y - fst (offs k))).
  Proof.
    induction l as [|[b k] l IH]; intros Hs m.
    - exists m. split; [reflexivity|]. intros x y. split; [reflexivity|]. intros b k [].
    - cbn [put_blocks]. unfold put_block. rewrite (is_shape_ok _ _ _ (Hs b k (or_introl eq_refl))). cbn [bind].
      match goal with |- exists m', put_blocks _ _ _ _ _ _ ?g = _ /\ _ => destruct (IH (fun b' k' I => Hs b' k' (or_intror I)) g) as (m' & E & V) end. exists m'. split; [exact E|]. intros x y. destruct (V x y) as [V0 V1]. clear E V.
      assert (D : (fst (offs b) <=? x) && (x <? snd (offs b)) && (fst (offs k) <=? y) && (y <? snd (offs k)) = true <-> within x (offs b) /\ within y (offs k)).
      { rewrite <- !within_b, !andb_true_iff. tauto. }
      assert (N : forall b' k', (forall b0 k0, In (b0, k0) ((b, k) :: l) -> within x (offs b0) -> within y (offs k0) -> b0 = b' /\ k0 = k') -> ~ In (b', k') l -> forall b0 k0, In (b0, k0) l -> ~ (within x (offs b0) /\ within y (offs k0))).
      { intros b' k' U Ni b0 k0 I0 [W1 W2]. destruct (U b0 k0 (or_intror I0) W1 W2) as [-> ->]. contradiction. }
      split.
      + intros Z. rewrite V0 by (intros b0 k0 I; apply Z; now right). destruct ((fst (offs b) <=? x) && (x <? snd (offs b)) && (fst (offs k) <=? y) && (y <? snd (offs k))) eqn:Q; [|reflexivity].
        pose proof (proj1 D eq_refl) as Q'. exfalso. apply (Z b k); [now left|exact Q'].
      + intros b' k' I W1 W2 U. assert (Dec : In (b', k') l \/ ~ In (b', k') l) by (destruct (in_dec (fun p q : nat * nat => ltac:(decide equality; apply Nat.eq_dec) : {p = q} + {p <> q}) (b', k') l); auto).
        destruct Dec as [I'|Ni]; [apply V1; auto; intros b0 k0 I0; apply U; now right|]. destruct I as [Eq|I]; [|contradiction]. injection Eq as -> ->.
        rewrite V0 by (apply (N b' k'); assumption). rewrite (proj2 D (conj W1 W2)). reflexivity.
  Qed.
End Blocks.

(** offsets *)
Section Offsets.
  Variable lr : list (list nat).
  Let m := length (hd [] lr).
  Lemma nprods_nth i : i < m -> nth i (nprods lr) 0 = prodN (column lr i).
  Proof. intros Hi. unfold nprods. fold m. now rewrite (nth_map_seq0 (fun i => prodN (column lr i)) m i) by exact Hi. Qed.
  Lemma addr_states i : i < m -> addr0 lr i = states_before lr i.
  Proof. intros Hi. unfold addr0. fold m. rewrite nth_offs0 by (rewrite map_length, seq_length; exact Hi). symmetry. apply states_before_off; lia. Qed.
  Lemma states_S i : states_before lr (S i) = states_before lr i + prodN (column lr i).
  Proof.
    unfold states_before. rewrite seq_S, map_app. cbn [map Nat.add]. generalize (map (fun r' => fold_right Nat.mul 1 (dims_of lr r')) (seq 0 i)). intros l. 
    change (fold_right Nat.mul 1 (dims_of lr i)) with (fold_right Nat.mul 1 (column lr i)). replace (prodN (column lr i)) with (fold_right Nat.mul 1 (column lr i)) by (induction (column lr i) as [|? ? E]; cbn; [reflexivity|now rewrite E]).
    induction l as [|a l IH]; cbn; lia.
  Qed.
  Lemma states_mono i j : i <= j -> states_before lr i <= states_before lr j.
  Proof. induction 1; [lia|]. rewrite states_S. lia. Qed.
  Lemma states_sep i j x : states_before lr i <= x < states_before lr (S i) -> states_before lr j <= x < states_before lr (S j) -> i = j.
  Proof. intros H1 H2. destruct (Nat.lt_trichotomy i j) as [L|[E|L]]; [|exact E|]; [pose proof (states_mono (S i) j L)|pose proof (states_mono (S j) i L)]; lia. Qed.
  Lemma states_total : sum_nat (nprods lr) = states_before lr m.
  Proof. unfold nprods, states_before. fold m. induction (seq 0 m) as [|a l IH]; [reflexivity|]. cbn. rewrite IH. reflexivity. Qed.
End Offsets.
Lemma set_offs_at lr l offs i : NoDup l -> i < length l -> set_offs lr l offs (nth i l 0) = (addr0 lr i, addr0 lr i + nth i (nprods lr) 0).
Proof.
  intros Nd Hi. unfold set_offs. 
  assert (G : forall js o, (In i js -> NoDup js -> (forall j, In j js -> j < length l) -> fold_left (fun (o : nat -> nat * nat) i r => if r =? nth i l 0 then (addr0 lr i, addr0 lr i + nth i (nprods lr) 0) else o r) js o (nth i l 0) = (addr0 lr i, addr0 lr i + nth i (nprods lr) 0)) /\
    (~ In i js -> (forall j, In j js -> j < length l) -> fold_left (fun (o : nat -> nat * nat) i r => if r =? nth i l 0 then (addr0 lr i, addr0 lr i + nth i (nprods lr) 0) else o r) js o (nth i l 0) = o (nth i l 0))).
  { induction js as [|j js IH]; intros o; [split; [intros []|reflexivity]|]. cbn [fold_left]. split.
    - intros [->|I] N B.
      + destruct (IH (fun r => if r =? nth i l 0 then (addr0 lr i, addr0 lr i + nth i (nprods lr) 0) else o r)) as [_ H]. rewrite H; [|now inversion N|intros; apply B; now right]. now rewrite Nat.eqb_refl.
      + apply IH; [exact I|now inversion N|intros; apply B; now right].
    - intros Ni B. destruct (IH (fun r => if r =? nth j l 0 then (addr0 lr j, addr0 lr j + nth j (nprods lr) 0) else o r)) as [_ H]. rewrite H; [|intros I; apply Ni; now right|intros; apply B; now right].
      destruct (nth i l 0 =? nth j l 0) eqn:E; [|reflexivity]. apply Nat.eqb_eq in E. exfalso. apply Ni. left. symmetry. apply (proj1 (NoDup_nth l 0) Nd); [exact Hi|apply B; now left|exact E]. }
  apply G; [apply in_seq; lia|apply seq_NoDup|]. intros j Hj. apply in_seq in Hj. lia.
Qed.
