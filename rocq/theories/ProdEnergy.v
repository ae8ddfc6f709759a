From Coq Require Import List Arith Bool Lia Ring.
From Verif Require Import BaseFacts Star ProdModel ProdFacts ProdSpec.
Import ListNotations.
Local Open Scope star_scope.

Section E.
Context {K : star_ring}.
Add Ring Kring : (sring K).
Notation pf := (pfrag K).
Notation block := (nat * pf)%type.
Variable half : K.
Definition dflt : block := (0%nat, mkPF 0 (fun _ _ _ => s0) (fun _ _ _ _ => s0)).
Notation Bn fr g := (nth g (blocks fr) dflt).
Notation N fr := (seq 0 (length fr)).
Notation others fr f := (filter (fun g => if Nat.eq_dec g f then false else true) (N fr)).

Lemma seq_shift_add i n : seq i n = map (Nat.add i) (seq 0 n).
Proof.
  revert i. induction n as [|n IH]; intros i; auto. cbn [seq map]. f_equal; [lia|].
  rewrite IH, <- seq_shift, map_map. apply map_ext. intros; lia.
Qed.
Lemma local_dot1 (b : block) h : dot1 (blk b) h (Db b) =
  let I := seq 0 (p_no (snd b)) in
  bsum I (fun x => bsum I (fun y => h false (fst b + x)%nat (fst b + y)%nat * p_d1 (snd b) false x y))
  + bsum I (fun x => bsum I (fun y => h true (fst b + x)%nat (fst b + y)%nat * p_d1 (snd b) true x y)).
Proof.
  assert (G : forall s, bsum (blk b) (fun p => bsum (blk b) (fun q => h s p q * Db b s p q)) =
    bsum (seq 0 (p_no (snd b))) (fun x => bsum (seq 0 (p_no (snd b))) (fun y => h s (fst b + x)%nat (fst b + y)%nat * p_d1 (snd b) s x y))).
  { intros s. unfold blk. rewrite seq_shift_add, bsum_map. apply bsum_ext; intros x _. rewrite bsum_map. apply bsum_ext; intros y _.
    unfold Db. rewrite !Nat.add_comm with (n := fst b), !Nat.add_sub. auto. }
  unfold dot1. cbn [bsum]. rewrite !G. ring.
Qed.
Lemma local_dot2 (b : block) h : dot2 (blk b) h (D2b b) =
  let I := seq 0 (p_no (snd b)) in
  bsum I (fun x => bsum I (fun y => bsum I (fun z => bsum I (fun w => local_h2 (fst b) h x y z w * p_d2 (snd b) x y z w)))).
Proof.
  cbn zeta. unfold dot2, blk. rewrite seq_shift_add, bsum_map. apply bsum_ext; intros x _. rewrite bsum_map. apply bsum_ext; intros y _.
  rewrite bsum_map. apply bsum_ext; intros z _. rewrite bsum_map. apply bsum_ext; intros w _.
  unfold D2b, local_h2. do 4 f_equal; lia.
Qed.
Lemma frag_energy_eq h0 (h1 : bool -> T2 K) h2 (b : block) :
  frag_energy half h0 (fun s x y => h1 s (fst b + x)%nat (fst b + y)%nat) (local_h2 (fst b) h2) (snd b) =
  h0 + dot1 (blk b) h1 (Db b) + half * dot2 (blk b) h2 (D2b b).
Proof. unfold frag_energy. rewrite local_dot1, local_dot2. auto. Qed.

Lemma blocks_In (fr : list pf) f F : nth_error fr f = Some F -> In f (N fr) /\ Bn fr f = (first_orb fr f, F).
Proof.
  intros H. split. - apply in_seq. apply nth_error_Some_lt in H. lia.
  - apply blocks_nth in H. apply nth_error_nth with (d := dflt) in H. exact H.
Qed.
Lemma project_nth ecore h1 h2 (fr : list pf) f F : nth_error fr f = Some F ->
  nth_error (project_hfrag half ecore h1 h2 fr) f = Some (project_frag half ecore h1 h2 fr (first_orb fr f, F)).
Proof. intros H. unfold project_hfrag. apply map_nth_error. apply blocks_nth; auto. Qed.

Section H2.
Variables (ecore : K) (h1 : bool -> T2 K) (h2 : T4 K).
Hypothesis exch : forall p q r s, h2 p q r s = h2 r s p q.

(** the effective energy of a block with its fragment replaced by F' *)
Lemma eff_energy (fr : list pf) f F F' : nth_error fr f = Some F -> p_no F' = p_no F ->
  let b := (first_orb fr f, F) in let b' := (first_orb fr f, F') in
  let r := project_frag half ecore h1 h2 fr b in
  frag_energy half (snd r) (fst r) (local_h2 (first_orb fr f) h2) F' =
    energy_elec half ecore h1 h2 fr - (bsum (N fr) (fun g => Px h2 b (Bn fr g)) - Px h2 b b)
    - (dot1 (blk b) h1 (Db b) + half * dot2 (blk b) h2 (D2b b))
    + (dot1 (blk b') h1 (Db b') + half * dot2 (blk b') h2 (D2b b'))
    + (bsum (N fr) (fun g => Px h2 (Bn fr g) b') - Px h2 b b').
Proof.
  intros Hf Hn b b' r. destruct (blocks_In fr f F Hf) as [Hin Eb]. fold b in Eb.
  assert (EB : blk b' = blk b) by (unfold blk, b, b'; cbn [fst snd]; rewrite Hn; auto).
  set (L := seq 0 (norb fr)). set (v1 := potential L (make_rdm1s fr) h2). set (vi := potential (blk b) (make_rdm1s fr) h2).
  change (frag_energy half (snd r) (fst r) (local_h2 (first_orb fr f) h2) F')
    with (frag_energy half (snd r) (fun s x y => (fun s p q => h1 s p q + v1 s p q - vi s p q) s (fst b' + x)%nat (fst b' + y)%nat) (local_h2 (fst b') h2) (snd b')).
  rewrite frag_energy_eq.
  change (snd r) with (energy_elec half ecore h1 h2 fr - dot1 L (make_rdm1s fr) vi
     - (dot1 (blk b) (fun s p q => h1 s p q - vi s p q) (make_rdm1s fr) + half * dot2 (blk b) h2 (make_rdm2 fr))).
  rewrite (dot1_comm L). unfold L. rewrite (dot1_L fr dflt).
  assert (V : forall c, dot1 (blk c) vi (Db c) = Px h2 b c).
  { intros c. unfold Px. apply dot1_ext. intros s p q _ _. unfold vi. rewrite <- Eb at 1. rewrite pot_block by auto. rewrite Eb; auto. }
  rewrite (bsum_ext K (N fr) _ (fun g => Px h2 b (Bn fr g))) by (intros; apply V).
  assert (Eb2 : b = Bn fr f) by (symmetry; exact Eb).
  assert (A1 : dot1 (blk b) (fun s p q => h1 s p q - vi s p q) (make_rdm1s fr) = dot1 (blk b) h1 (Db b) - Px h2 b b).
  { rewrite Eb2 at 1. rewrite dot1_block by auto. rewrite <- Eb2, dot1_sub, V. auto. }
  assert (A2 : dot2 (blk b) h2 (make_rdm2 fr) = dot2 (blk b) h2 (D2b b)).
  { rewrite Eb2. apply dot2_block; auto. }
  rewrite A1, A2, dot1_sub, dot1_add. unfold v1, L. rewrite (dot1_pot_L fr dflt). rewrite V. ring.
Qed.

(** C34, own density: no symmetry of the densities needed *)
Theorem own_energy (fr : list pf) f F : nth_error fr f = Some F ->
  let r := project_frag half ecore h1 h2 fr (first_orb fr f, F) in
  frag_energy half (snd r) (fst r) (local_h2 (first_orb fr f) h2) F = energy_elec half ecore h1 h2 fr.
Proof.
  intros Hf r. unfold r. rewrite (eff_energy fr f F F) by auto.
  rewrite (bsum_ext K (N fr) (fun g => Px h2 (first_orb fr f, F) (Bn fr g)) (fun g => Px h2 (Bn fr g) (first_orb fr f, F)))
    by (intros; apply Px_sym; auto). ring.
Qed.

(** the energy as a sum over fragments and over pairs of fragments *)
Definition e1 (b : block) : K := dot1 (blk b) h1 (Db b) + half * dot2 (blk b) h2 (D2b b).
Lemma energy_sum (fr : list pf) : energy_elec half ecore h1 h2 fr =
  ecore + bsum (N fr) (fun g => e1 (Bn fr g)) + half * bsum (N fr) (fun g => bsum (others fr g) (fun h => Wx h2 (Bn fr g) (Bn fr h))).
Proof.
  unfold energy_elec. rewrite (dot1_L fr dflt), (dot2_L fr dflt), bsum_add. unfold e1. rewrite bsum_add, <- (bsum_mul_l K (N fr) half). ring.
Qed.

Lemma sym_frag_block i (F : pf) : sym_frag F -> sym_block (i, F).
Proof.
  intros H s p q Hp Hq. unfold blk in *. cbn [fst snd] in *. apply in_seq in Hp, Hq. unfold Db. cbn [fst snd]. apply H; lia.
Qed.
Lemma Wx_sym b c : sym_block b -> sym_block c -> Wx h2 b c = Wx h2 c b.
Proof. intros Hb Hc. rewrite <- (Px_W h2 exch c b Hc), Px_sym by auto. apply Px_W; auto. Qed.

Hypothesis half2 : half + half = s1.

(** C34 for a trial state of one fragment *)
Theorem trial_energy (l1 l2 : list pf) F F' : p_no F' = p_no F ->
  Forall sym_frag (l1 ++ F :: l2) -> sym_frag F' ->
  let fr := l1 ++ F :: l2 in
  let r := project_frag half ecore h1 h2 fr (first_orb fr (length l1), F) in
  frag_energy half (snd r) (fst r) (local_h2 (first_orb fr (length l1)) h2) F' =
  energy_elec half ecore h1 h2 (l1 ++ F' :: l2).
Proof.
  intros Hn HS HS' fr r. set (f := length l1).
  assert (Hf : nth_error fr f = Some F) by (unfold fr, f; rewrite nth_error_app2, Nat.sub_diag by lia; auto).
  unfold r. fold f. rewrite (eff_energy fr f F F') by auto.
  set (fr' := l1 ++ F' :: l2). set (b := (first_orb fr f, F)). set (b' := (first_orb fr f, F')).
  assert (Hf' : nth_error fr' f = Some F') by (unfold fr', f; rewrite nth_error_app2, Nat.sub_diag by lia; auto).
  destruct (blocks_In fr f F Hf) as [Hin Eb]. fold b in Eb.
  assert (LN : N fr' = N fr) by (unfold fr', fr; rewrite !app_length; auto).
  assert (OFF : forall g, first_orb fr' g = first_orb fr g).
  { intros g. unfold first_orb, fr, fr'. rewrite !firstn_app, !map_app, !list_sum_app. f_equal.
    destruct (g - length l1)%nat; auto. cbn [firstn map]. cbn. rewrite Hn. auto. }
  assert (Eb' : Bn fr' f = b').
  { destruct (blocks_In fr' f F' Hf') as [_ E]. rewrite E, OFF. auto. }
  assert (SAME : forall g, In g (others fr f) -> Bn fr' g = Bn fr g).
  { intros g Hg. apply filter_In in Hg as [Hg Hgf]. destruct (Nat.eq_dec g f) as [|Hgf']; [discriminate|].
    assert (E : nth_error fr' g = nth_error fr g).
    { unfold fr, fr', f in *. destruct (le_lt_dec (length l1) g).
      - rewrite !nth_error_app2 by lia. destruct (g - length l1)%nat eqn:Q; [lia|]. auto.
      - rewrite !nth_error_app1 by lia. auto. }
    apply in_seq in Hg. destruct (nth_error fr g) as [G|] eqn:EG; [|apply nth_error_None in EG; lia].
    destruct (blocks_In fr g G EG) as [_ ->]. destruct (blocks_In fr' g G E) as [_ ->]. rewrite OFF; auto. }
  assert (ND : NoDup (N fr)) by apply seq_NoDup.
  assert (SY : forall g, In g (N fr) -> sym_block (Bn fr g)).
  { intros g Hg. apply in_seq in Hg. destruct (nth_error fr g) as [G|] eqn:EG; [|apply nth_error_None in EG; lia].
    destruct (blocks_In fr g G EG) as [_ ->]. apply sym_frag_block. apply nth_error_In in EG.
    rewrite Forall_forall in HS. auto. }
  assert (SYb : sym_block b) by (rewrite <- Eb; auto).
  assert (SYb' : sym_block b') by (apply sym_frag_block; auto).
  (* sums over the other fragments *)
  set (O := others fr f).
  assert (P1 : bsum (N fr) (fun g => Px h2 b (Bn fr g)) - Px h2 b b = bsum O (fun g => Wx h2 (Bn fr g) b)).
  { rewrite (bsum_split Nat.eq_dec (N fr) _ f ND Hin), Eb. fold O.
    rewrite (bsum_ext K O (fun g => Px h2 b (Bn fr g)) (fun g => Wx h2 (Bn fr g) b)) by (intros; apply Px_W; auto). ring. }
  assert (P2 : bsum (N fr) (fun g => Px h2 (Bn fr g) b') - Px h2 b b' = bsum O (fun g => Wx h2 b' (Bn fr g))).
  { rewrite (bsum_split Nat.eq_dec (N fr) _ f ND Hin), Eb. fold O.
    rewrite (bsum_ext K O (fun g => Px h2 (Bn fr g) b') (fun g => Wx h2 b' (Bn fr g))); [ring|].
    intros g Hg. apply Px_W; auto. apply SY. apply filter_In in Hg; tauto. }
  rewrite P1, P2, !energy_sum, LN.
  (* split the one-fragment sums *)
  rewrite (bsum_split Nat.eq_dec (N fr) (fun g => e1 (Bn fr g)) f ND Hin), Eb.
  rewrite (bsum_split Nat.eq_dec (N fr) (fun g => e1 (Bn fr' g)) f ND Hin), Eb'. fold O.
  rewrite (bsum_ext K O (fun g => e1 (Bn fr' g)) (fun g => e1 (Bn fr g))) by (intros; rewrite SAME; auto).
  (* split the pair sums *)
  assert (D : forall (W : nat -> nat -> K), bsum (N fr) (fun g => bsum (others fr g) (fun h => W g h)) =
     bsum O (fun h => W f h) + (bsum O (fun g => W g f) + bsum O (fun g => bsum (filter (fun h => if Nat.eq_dec h f then false else true) (others fr g)) (fun h => W g h)))).
  { intros W. rewrite (bsum_split Nat.eq_dec (N fr) _ f ND Hin). fold O. f_equal. rewrite <- bsum_add. apply bsum_ext.
    intros g Hg. apply bsum_split. - apply NoDup_filter; auto.
    - apply filter_In. split; auto. apply filter_In in Hg as [_ Hg]. destruct (Nat.eq_dec g f); [discriminate|].
      destruct (Nat.eq_dec f g); congruence. }
  rewrite (D (fun g h => Wx h2 (Bn fr g) (Bn fr h))), (D (fun g h => Wx h2 (Bn fr' g) (Bn fr' h))), Eb, Eb'.
  set (R' := bsum O (fun g => bsum _ (fun h => Wx h2 (Bn fr' g) (Bn fr' h)))).
  set (R := bsum O (fun g => bsum _ (fun h => Wx h2 (Bn fr g) (Bn fr h)))).
  assert (RR : R' = R).
  { unfold R', R. apply bsum_ext; intros g Hg. apply bsum_ext; intros h Hh.
    apply filter_In in Hh as [Hh Hhf]. apply filter_In in Hh as [Hh _].
    rewrite !SAME; auto. apply filter_In. auto. }
  rewrite RR.
  rewrite (bsum_ext K O (fun h => Wx h2 b' (Bn fr' h)) (fun h => Wx h2 b' (Bn fr h))) by (intros; rewrite SAME; auto).
  rewrite (bsum_ext K O (fun h => Wx h2 (Bn fr' h) b') (fun h => Wx h2 b' (Bn fr h))).
  2:{ intros g Hg. rewrite SAME by auto. apply Wx_sym; auto. apply SY. apply filter_In in Hg; tauto. }
  rewrite (bsum_ext K O (fun h => Wx h2 b (Bn fr h)) (fun h => Wx h2 (Bn fr h) b)).
  2:{ intros g Hg. apply Wx_sym; auto. apply SY. apply filter_In in Hg; tauto. }
  fold (e1 b). fold (e1 b').
  set (A := bsum O (fun g => Wx h2 (Bn fr g) b)). set (A' := bsum O (fun g => Wx h2 b' (Bn fr g))).
  set (S := bsum O (fun g => e1 (Bn fr g))).
  transitivity (ecore + (e1 b + S) + (half + half) * A + half * R - A - e1 b + e1 b' + A'); [ring|].
  transitivity (ecore + (e1 b' + S) + (half + half) * A' + half * R); [rewrite half2; ring | ring].
Qed.
End H2.
End E.
