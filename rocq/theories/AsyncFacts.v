From Coq Require Import List ZArith Arith Bool Lia Sorting.Permutation Sorting.Sorted.
From Verif Require Import Base BaseFacts AsyncModel AsyncSpec.
Import ListNotations.
Local Open Scope nat_scope.

(** ** Tournament *)
Section T.
Context {A : Type} (comb : A -> A -> res A).

Lemma two_ind (P : list A -> Prop) : P [] -> (forall a, P [a]) -> (forall a b r, P r -> P (a :: b :: r)) -> forall l, P l.
Proof.
  intros H0 H1 H2 l. enough (P l /\ forall a, P (a :: l)) by tauto.
  induction l as [|x l [IH1 IH2]]; split; auto.
Qed.

Lemma comb_pairs_len l : forall c, comb_pairs comb l = Ok c -> length c = length l / 2.
Proof.
  induction l as [|a|a b r IH] using two_ind; intros c H; cbn in H; try (inversion H; subst; reflexivity).
  destruct (comb a b); cbn in H; [|discriminate]. destruct (comb_pairs comb r); cbn in H; [|discriminate].
  inversion H; subst. cbn [length]. rewrite (IH _ eq_refl).
  replace (S (S (length r))) with (length r + 1 * 2) by lia. rewrite Nat.div_add by lia. lia.
Qed.
Lemma comb_pairs_snoc l x : Nat.odd (length l) = false -> comb_pairs comb (l ++ [x]) = comb_pairs comb l.
Proof.
  induction l as [|a|a b r IH] using two_ind; intros H; auto; try discriminate.
  cbn in *. rewrite IH; auto.
Qed.
Lemma py_insert_perm i (x : A) l : Permutation (py_insert i x l) (x :: l).
Proof.
  unfold py_insert. rewrite <- Permutation_middle. rewrite firstn_skipn. reflexivity.
Qed.
Lemma odd_ne (l : list A) : Nat.odd (length l) = true -> exists l0 x, l = l0 ++ [x] /\ Nat.odd (length l0) = false.
Proof.
  intros H. destruct l as [|a l] using rev_ind; [discriminate|]. exists l, a. split; auto.
  rewrite app_length, Nat.add_1_r, Nat.odd_succ in H. unfold Nat.odd. rewrite H; auto.
Qed.

(** what a round does *)
Lemma round_spec l l' : round comb l = Ok l' ->
  exists c, comb_pairs comb l = Ok c /\
    (Nat.odd (length l) = false /\ l' = c \/
     exists l0 x, l = l0 ++ [x] /\ Nat.odd (length l0) = false /\ comb_pairs comb l0 = Ok c /\ Permutation l' (x :: c)).
Proof.
  unfold round. destruct (comb_pairs comb l) as [c|] eqn:E; cbn; [|discriminate].
  destruct (Nat.odd (length l)) eqn:O; intros H.
  - destruct (odd_ne _ O) as (l0 & x & -> & O0). rewrite rev_app_distr in H. cbn in H. inversion H; subst.
    exists c. split; auto. right. exists l0, x. repeat split; auto.
    + rewrite comb_pairs_snoc in E; auto.
    + apply py_insert_perm.
  - inversion H; subst. exists l'; auto.
Qed.
Lemma round_total l c : comb_pairs comb l = Ok c -> exists l', round comb l = Ok l'.
Proof.
  unfold round. intros ->. cbn [bind]. destruct (Nat.odd (length l)) eqn:O; eauto.
  destruct (odd_ne _ O) as (l0 & x & -> & _). rewrite rev_app_distr; cbn; eauto.
Qed.
Lemma round_len l l' : round comb l = Ok l' -> length l' = S (length l) / 2.
Proof.
  intros H. destruct (round_spec _ _ H) as (c & E & [[O ->]|(l0 & x & -> & O & E0 & P)]).
  - rewrite (comb_pairs_len _ _ E). rewrite <- Nat.negb_even in O. apply negb_false_iff, Nat.even_spec in O.
    destruct O as [k ->]. replace (S (2*k)) with (1 + k*2) by lia. rewrite Nat.div_add by lia.
    replace (2*k) with (k*2) by lia. rewrite Nat.div_mul by lia. reflexivity.
  - rewrite (Permutation_length P). cbn [length]. rewrite (comb_pairs_len _ _ E0), app_length. cbn [length].
    replace (S (length l0 + 1)) with (length l0 + 1*2) by lia. rewrite Nat.div_add by lia. lia.
Qed.

Lemma log2_up_half n : 2 <= n -> Nat.log2_up n = S (Nat.log2_up (S n / 2)).
Proof.
  intros H. destruct (Nat.Even_or_Odd n) as [[k ->]|[k ->]].
  - replace (S (2*k)) with (1 + k*2) by lia. rewrite Nat.div_add by lia. cbn [Nat.div]. 
    change (1/2) with 0. cbn [Nat.add]. rewrite Nat.log2_up_double by lia. reflexivity.
  - replace (S (2*k+1)) with ((k+1)*2) by lia. rewrite Nat.div_mul by lia.
    rewrite Nat.log2_up_succ_double by lia. rewrite (Nat.log2_up_eqn (k+1)) by lia. rewrite Nat.add_1_r; auto.
Qed.

Variable I : list A -> Prop.
Hypothesis Istep : forall l, I l -> 2 <= length l -> exists l', round comb l = Ok l' /\ I l'.

Lemma rounds_inv n : forall l, length l = n -> 1 <= n -> I l ->
  exists x, rounds comb (Nat.log2_up n) l = Ok [x] /\ I [x].
Proof.
  induction n as [n IH] using lt_wf_ind; intros l L Hn HI.
  destruct (Nat.eq_dec n 1) as [->|N1].
  - cbn. destruct l as [|x [|]]; try discriminate. eauto.
  - rewrite log2_up_half by lia. cbn [rounds]. destruct (Istep l HI ltac:(lia)) as (l' & R & HI').
    rewrite R; cbn [bind]. pose proof (round_len _ _ R) as L'. rewrite L in L'.
    assert (S n / 2 < n /\ 1 <= S n / 2).
    { split; [apply Nat.div_lt_upper_bound; lia|apply Nat.div_le_lower_bound; lia]. }
    apply IH; auto; lia.
Qed.
Lemma tournament_inv l : l <> [] -> I l -> exists x, tournament comb l = Ok x /\ I [x].
Proof.
  intros Hne HI. destruct l as [|a l]; [congruence|].
  destruct (rounds_inv _ (a::l) eq_refl ltac:(cbn; lia) HI) as (x & R & Hx).
  exists x. split; auto. unfold tournament. rewrite R; reflexivity.
Qed.
End T.

(** every run of the tournament follows a bracketing *)
Lemma comb_pairs_trees {A} comb (base : list A) l : forall ts c,
  Forall2 (evaluates comb base) ts l -> comb_pairs comb l = Ok c -> Nat.odd (length l) = false ->
  exists ts', Forall2 (evaluates comb base) ts' c /\ Permutation (flat_map leaves ts') (flat_map leaves ts).
Proof.
  induction l as [|a|a b r IH] using two_ind; intros ts c F H O; cbn in H; try discriminate.
  - inversion H; subst. inversion F; subst. exists []; split; auto.
  - destruct (comb a b) as [z|] eqn:Ez; cbn in H; [|discriminate].
    destruct (comb_pairs comb r) as [cs|] eqn:Er; cbn in H; [|discriminate]. inversion H; subst.
    inversion F as [|t1 ? ts1 ? E1 F1]; subst. inversion F1 as [|t2 ? ts2 ? E2 F2]; subst.
    destruct (IH ts2 cs F2 eq_refl O) as (ts' & F' & P).
    exists (Node t1 t2 :: ts'). split.
    + constructor; auto. econstructor; eauto.
    + cbn. rewrite <- app_assoc. rewrite P. reflexivity.
Qed.
Lemma Forall2_perm_l {A B} (R : A -> B -> Prop) l1 l2 l2' : Forall2 R l1 l2 -> Permutation l2 l2' ->
  exists l1', Permutation l1 l1' /\ Forall2 R l1' l2'.
Proof.
  intros F P. revert l1 F. induction P; intros l1 F.
  - inversion F; subst; eauto.
  - inversion F as [|a ? l1' ? Ra F']; subst. destruct (IHP _ F') as (m & Pm & Fm). exists (a::m); split; auto.
  - inversion F as [|a ? l1' ? Ra F']; subst. inversion F' as [|b ? l1'' ? Rb F'']; subst.
    exists (b::a::l1''); split; [constructor|auto].
  - destruct (IHP1 _ F) as (m & Pm & Fm). destruct (IHP2 _ Fm) as (m' & Pm' & Fm').
    exists m'; split; auto. etransitivity; eauto.
Qed.
Lemma Permutation_flat_map {A B} (f : A -> list B) l l' : Permutation l l' -> Permutation (flat_map f l) (flat_map f l').
Proof.
  induction 1; cbn; auto.
  - apply Permutation_app_head; auto.
  - rewrite !app_assoc. apply Permutation_app_tail, Permutation_app_comm.
  - etransitivity; eauto.
Qed.
Lemma round_trees {A} comb (base : list A) l l' ts :
  Forall2 (evaluates comb base) ts l -> round comb l = Ok l' ->
  exists ts', Forall2 (evaluates comb base) ts' l' /\ Permutation (flat_map leaves ts') (flat_map leaves ts).
Proof.
  intros F R. destruct (round_spec _ _ _ R) as (c & E & [[O ->]|(l0 & x & -> & O & E0 & P)]).
  - eapply comb_pairs_trees; eauto.
  - apply Forall2_app_inv_r in F as (ts0 & tx & F0 & Fx & ->).
    inversion Fx as [|t ? ? ? Ex N]; subst. inversion N; subst.
    destruct (comb_pairs_trees comb base l0 ts0 c F0 E0 O) as (ts' & F' & P').
    destruct (Forall2_perm_l (evaluates comb base) (t :: ts') (x :: c) l') as (m & Pm & Fm).
    { constructor; auto. } { symmetry; auto. }
    exists m. split; auto. rewrite <- (Permutation_flat_map leaves _ _ Pm). cbn.
    rewrite flat_map_app. cbn. rewrite app_nil_r, P'. apply Permutation_app_comm.
Qed.
Lemma rounds_trees {A} comb (base : list A) n : forall l l' ts,
  Forall2 (evaluates comb base) ts l -> rounds comb n l = Ok l' ->
  exists ts', Forall2 (evaluates comb base) ts' l' /\ Permutation (flat_map leaves ts') (flat_map leaves ts).
Proof.
  induction n as [|n IH]; intros l l' ts F R; cbn in R.
  - inversion R; subst; eauto.
  - destruct (round comb l) as [l1|] eqn:E; cbn in R; [|discriminate].
    destruct (round_trees comb base l l1 ts F E) as (ts1 & F1 & P1).
    destruct (IH l1 l' ts1 F1 R) as (ts' & F' & P'). exists ts'; split; auto. etransitivity; eauto.
Qed.
Lemma tournament_tree {A} comb (l : list A) x : tournament comb l = Ok x ->
  exists t, evaluates comb l t x /\ Permutation (leaves t) (seq 0 (length l)).
Proof.
  intros H. assert (Hl : l <> []) by (destruct l; cbn in H; congruence).
  assert (F : Forall2 (evaluates comb l) (map Leaf (seq 0 (length l))) l).
  { enough (G : forall l1 l2, l = l1 ++ l2 -> Forall2 (evaluates comb l) (map Leaf (seq (length l1) (length l2))) l2).
    { apply (G []); auto. }
    intros l1 l2; revert l1. induction l2 as [|y l2 IH]; intros l1 E; cbn; constructor.
    - constructor. rewrite E, nth_error_app2, Nat.sub_diag; auto.
    - specialize (IH (l1 ++ [y])). rewrite app_length in IH. cbn in IH. rewrite Nat.add_1_r in IH. apply IH.
      rewrite <- app_assoc; auto. }
  unfold tournament in H. destruct l as [|a l0]; [congruence|]. set (l := a :: l0) in *.
  destruct (rounds comb (Nat.log2_up (length l)) l) as [l'|] eqn:R; cbn [bind] in H; [|discriminate].
  destruct (rounds_trees comb l _ l l' _ F R) as (ts' & F' & P').
  destruct l' as [|y [|]]; try discriminate. inversion H; subst.
  inversion F' as [|t ? ? ? E N]; subst. inversion N; subst. exists t; split; auto.
  assert (G : forall n s, flat_map leaves (map Leaf (seq s n)) = seq s n).
  { clear. induction n as [|n IH]; intros s; cbn; auto. rewrite IH; auto. }
  rewrite G in P'. cbn [flat_map] in P'. rewrite app_nil_r in P'. exact P'.
Qed.

(** ** Fragments of a combined keyframe *)
Lemma memb_In x l : memb x l = true <-> In x l.
Proof.
  unfold memb. rewrite existsb_exists. split.
  - intros (y & H & E). apply Nat.eqb_eq in E; subst; auto.
  - intros; exists x; split; auto. apply Nat.eqb_refl.
Qed.
Lemma insert_nat_perm x l : Permutation (insert_nat x l) (x :: l).
Proof.
  induction l as [|y l IH]; cbn; auto. destruct (x <=? y); auto. rewrite IH. constructor.
Qed.
Lemma sort_nat_perm l : Permutation (sort_nat l) l.
Proof. induction l as [|x l IH]; cbn; auto. rewrite insert_nat_perm, IH; auto. Qed.
Lemma remove_one_perm x l : In x l -> Permutation (x :: remove_one x l) l.
Proof.
  induction l as [|y l IH]; cbn; intros H; [tauto|].
  destruct (Nat.eqb_spec x y); [subst; auto|]. destruct H; [congruence|].
  rewrite perm_swap. constructor; auto.
Qed.

Definition sub (s t : list nat) : Prop := exists r, Permutation (s ++ r) t.
Lemma sub_NoDup s t : sub s t -> NoDup t -> NoDup s.
Proof. intros [r P] H. apply (Permutation_NoDup (Permutation_sym P)) in H. apply NoDup_app_inv in H. tauto. Qed.
Lemma sub_In s t x : sub s t -> In x s -> In x t.
Proof. intros [r P] H. apply (Permutation_in _ P), in_or_app; auto. Qed.
Lemma sub_app s t s' t' : sub s t -> sub s' t' -> sub (s ++ s') (t ++ t').
Proof.
  intros [r P] [r' P']. exists (r ++ r'). rewrite <- P, <- P', <- !app_assoc.
  apply Permutation_app_head. rewrite !app_assoc. apply Permutation_app_tail, Permutation_app_comm.
Qed.
Lemma sub_refl s : sub s s. Proof. exists []; rewrite app_nil_r; auto. Qed.
Lemma sub_perm_r s t t' : Permutation t t' -> sub s t -> sub s t'.
Proof. intros P [r Q]. exists r. etransitivity; eauto. Qed.
Lemma sub_perm_l s s' t : Permutation s s' -> sub s t -> sub s' t.
Proof. intros P [r Q]. exists r. rewrite <- P; auto. Qed.
Lemma sub_trans s t u : sub s t -> sub t u -> sub s u.
Proof. intros [r P] [q Q]. exists (r ++ q). rewrite app_assoc, P; auto. Qed.

Section C.
Context {V : Type} (gmax : list nat -> list nat -> nat) (order : list nat -> list nat).
Hypothesis Sel : selection gmax order.

Lemma select_spec m f1 f2 : f1 <> [] -> f2 <> [] -> NoDup (f1 ++ f2) ->
  exists aa, select_aa_block gmax order m f1 f2 = Ok aa /\ aa <> [] /\ sub aa (f1 ++ f2) /\
    (length (f1 ++ f2) <= m -> Permutation aa (f1 ++ f2)).
Proof.
  intros H1 H2 ND. unfold select_aa_block.
  assert (L1 : 0 < length f1) by (destruct f1; cbn; [congruence|lia]).
  assert (L2 : 0 < length f2) by (destruct f2; cbn; [congruence|lia]).
  destruct (Nat.eqb_spec (length f1 * length f2) 0); [nia|].
  set (g := gmax f1 f2). assert (Hg : g < length f1 * length f2) by (apply Sel; auto). 
  set (i := nth (g / length f2) f1 0). set (j := nth (g mod length f2) f2 0).
  assert (Ii : In i f1) by (apply nth_In, Nat.div_lt_upper_bound; nia).
  assert (Ij : In j f2) by (apply nth_In, Nat.mod_upper_bound; lia).
  assert (Hij : i <> j). { intros E. apply NoDup_app_inv in ND as (_ & _ & D). apply (D i); auto. rewrite E; auto. }
  assert (P2 : forall q, Permutation q (f1 ++ f2) -> Permutation (i :: j :: remove_one j (remove_one i q)) q).
  { intros q P. assert (In i q) by (apply (Permutation_in _ (Permutation_sym P)), in_or_app; auto).
    pose proof (remove_one_perm i q H) as P1.
    assert (In j (remove_one i q)).
    { assert (In j (i :: remove_one i q)) as [|]; auto; [|congruence].
      apply (Permutation_in _ (Permutation_sym P1)), (Permutation_in _ (Permutation_sym P)), in_or_app; auto. }
    rewrite remove_one_perm; auto. }
  specialize (P2 _ (sort_nat_perm (f1 ++ f2))). pose proof (Permutation_trans P2 (sort_nat_perm (f1 ++ f2))) as P3. clear P2. rename P3 into P2.
  set (q := sort_nat (f1 ++ f2)) in *.
  assert (Lq : length q = length (f1 ++ f2)) by apply Permutation_length, sort_nat_perm.
  set (rest := remove_one j (remove_one i q)) in *. pose proof (proj2 Sel rest) as PO.
  assert (Lr : length (order rest) + 2 = length (f1 ++ f2)).
  { rewrite (Permutation_length PO), <- (Permutation_length P2). cbn; lia. }
  destruct (Nat.ltb_spec (Nat.min (length q) m) 3).
  - exists [i; j]. repeat split; try discriminate.
    + exists rest; auto.
    + intros Hm. rewrite app_length in *. assert (L : length (order rest) = 0) by lia.
      rewrite (Permutation_length PO) in L. apply length_zero_iff_nil in L. rewrite L in P2; auto.
  - eexists; repeat split; try discriminate.
    + exists (skipn (Nat.min (length q) m - 2) (order rest)). cbn. rewrite firstn_skipn, PO; auto.
    + intros Hm. rewrite firstn_all2 by lia. rewrite PO; auto.
Qed.

Lemma orth_inner (k : kf V) v x : 
  fold_left (fun v f => fun x => if x =? f then kf_val k f else v x) (kf_frags k) v x
  = if memb x (kf_frags k) then kf_val k x else v x.
Proof.
  revert v. induction (kf_frags k) as [|f l IH]; intros v; cbn; auto.
  rewrite IH. unfold memb. destruct (Nat.eqb_spec x f); cbn; [subst|]; auto.
  destruct (existsb (Nat.eqb f) l); auto.
Qed.
Lemma orth_two (k1 k2 : kf V) ref x : orth_active [k1; k2] ref x =
  if memb x (kf_frags k2) then kf_val k2 x else if memb x (kf_frags k1) then kf_val k1 x else ref x.
Proof. cbn. rewrite orth_inner. destruct (memb x (kf_frags k2)); auto. rewrite orth_inner; auto. Qed.

Variables (ref new : nat -> V) (m n : nat).
Notation cp := (combine_pair gmax order m ref).

Lemma combine_spec (k1 k2 : kf V) : kf_frags k1 <> [] -> kf_frags k2 <> [] -> NoDup (kf_frags k1 ++ kf_frags k2) ->
  exists k3, cp k1 k2 = Ok k3 /\ kf_frags k3 <> [] /\ sub (kf_frags k3) (kf_frags k1 ++ kf_frags k2) /\
    (length (kf_frags k1 ++ kf_frags k2) <= m -> Permutation (kf_frags k3) (kf_frags k1 ++ kf_frags k2)) /\
    forall x, kf_val k3 x = orth_active [k1; k2] ref x.
Proof.
  intros H1 H2 ND. unfold combine_pair.
  destruct (existsb _ _) eqn:E.
  - apply existsb_exists in E as (x & I1 & I2). apply memb_In in I2. apply NoDup_app_inv in ND as (_ & _ & D).
    destruct (D x); auto.
  - destruct (select_spec m _ _ H1 H2 ND) as (aa & -> & ? & ? & ?). cbn [bind]. eexists; repeat split; cbn; auto.
Qed.

Definition fresh (k : kf V) : Prop := forall f, In f (kf_frags k) -> kf_val k f = new f.
Definition inv0 (l : list (kf V)) : Prop :=
  NoDup (flat_map kf_frags l) /\ Forall (fun k => kf_frags k <> []) l /\ Forall fresh l.

Lemma comb_pairs_inv l : inv0 l -> Nat.odd (length l) = false ->
  exists c, comb_pairs cp l = Ok c /\ sub (flat_map kf_frags c) (flat_map kf_frags l) /\
    Forall (fun k => kf_frags k <> []) c /\ Forall fresh c /\
    ((forall k1 k2 r1 r2, l = r1 ++ k1 :: k2 :: r2 -> length (kf_frags k1 ++ kf_frags k2) <= m) ->
     Permutation (flat_map kf_frags c) (flat_map kf_frags l)).
Proof.
  induction l as [|a|a b r IH] using two_ind; intros (ND & NE & FR) O; try discriminate.
  - exists []. repeat split; cbn; auto. apply sub_refl.
  - cbn in ND. rewrite app_assoc in ND. pose proof ND as ND0. apply NoDup_app_inv in ND0 as (ND1 & ND2 & _).
    inversion NE as [|? ? Na NE']; subst. inversion NE' as [|? ? Nb NEr]; subst.
    inversion FR as [|? ? Fa FR']; subst. inversion FR' as [|? ? Fb FRr]; subst.
    destruct (combine_spec a b Na Nb ND1) as (k & E & Nk & Sk & Pk & Vk).
    destruct IH as (c & Ec & Sc & NEc & FRc & Pc); [split; auto|exact O|].
    exists (k :: c). cbn [comb_pairs]. rewrite E; cbn [bind]; rewrite Ec; cbn [bind]. repeat split; auto.
    + cbn. rewrite app_assoc. apply sub_app; auto.
    + constructor; auto. intros f Hf. rewrite Vk, orth_two.
      destruct (memb f (kf_frags b)) eqn:Mb; [apply memb_In in Mb; auto|].
      destruct (memb f (kf_frags a)) eqn:Ma; [apply memb_In in Ma; auto|].
      apply (sub_In _ _ _ Sk), in_app_or in Hf as [Hf|Hf]; apply memb_In in Hf; congruence.
    + intros HL. cbn. rewrite app_assoc. rewrite (Pk (HL a b [] r eq_refl)). apply Permutation_app_head, Pc.
      intros k1 k2 r1 r2 Er. apply (HL k1 k2 (a :: b :: r1) r2). rewrite Er; auto.
Qed.

Lemma round_inv l : inv0 l -> exists l', round cp l = Ok l' /\ inv0 l' /\
  sub (flat_map kf_frags l') (flat_map kf_frags l) /\
  ((forall k1 k2 r1 r2, l = r1 ++ k1 :: k2 :: r2 -> length (kf_frags k1 ++ kf_frags k2) <= m) ->
     Permutation (flat_map kf_frags l') (flat_map kf_frags l)).
Proof.
  intros Hinv. pose proof Hinv as (ND & NE & FR).
  assert (T : exists c, comb_pairs cp l = Ok c).
  { destruct (Nat.odd (length l)) eqn:O.
    - destruct (odd_ne _ O) as (l0 & x & -> & O0). rewrite comb_pairs_snoc by auto.
      rewrite flat_map_app in ND. apply NoDup_app_inv in ND as (ND0 & _).
      apply Forall_app in NE as [NE0 _]. apply Forall_app in FR as [FR0 _].
      destruct (comb_pairs_inv l0) as (c & E & _); [split; auto|auto|eauto].
    - destruct (comb_pairs_inv l) as (c & E & _); auto; eauto. }
  destruct T as [c0 Ec0]. destruct (round_total cp l c0 Ec0) as [l' R]. exists l'. split; auto.
  destruct (round_spec _ _ _ R) as (c & E & [[O ->]|(l0 & x & -> & O & E0 & P)]).
  - destruct (comb_pairs_inv l) as (c' & E' & S & NE' & FR' & PP); auto.
    rewrite E in E'; inversion E'; subst c'. repeat split; auto. eapply sub_NoDup; eauto.
  - rewrite flat_map_app in ND. pose proof ND as ND'. apply NoDup_app_inv in ND' as (ND0 & _).
    pose proof NE as NE'. pose proof FR as FR'. apply Forall_app in NE' as [NE0 NEx]. apply Forall_app in FR' as [FR0 FRx].
    destruct (comb_pairs_inv l0) as (c' & E' & S & NEc & FRc & PP); [split; auto|auto|].
    rewrite E0 in E'; inversion E'; subst c'.
    assert (Px : Permutation (flat_map kf_frags l') (flat_map kf_frags c ++ kf_frags x)).
    { rewrite (Permutation_flat_map kf_frags _ _ P). cbn. apply Permutation_app_comm. }
    assert (SS : sub (flat_map kf_frags l') (flat_map kf_frags (l0 ++ [x]))).
    { eapply sub_perm_l; [symmetry; exact Px|]. rewrite flat_map_app. apply sub_app; auto. cbn. rewrite app_nil_r. apply sub_refl. }
    assert (Fx : forall Q : kf V -> Prop, Forall Q [x] -> Forall Q c -> Forall Q l').
    { intros Q Q1 Q2. eapply Permutation_Forall; [symmetry; exact P|]. constructor; auto. inversion Q1; auto. }
    repeat split; auto.
    + eapply sub_NoDup; eauto. rewrite flat_map_app; auto.
    + intros HL. rewrite Px, PP, flat_map_app. cbn. rewrite app_nil_r; auto.
      intros k1 k2 r1 r2 Er. apply (HL k1 k2 r1 (r2 ++ [x])). rewrite Er, <- app_assoc; auto.
Qed.

(** no exception, whatever the limit *)
Lemma push_inv0 s : inv0 (map (push ref new) (seq s n)).
Proof.
  assert (E : forall s, flat_map kf_frags (map (push ref new) (seq s n)) = seq s n).
  { clear. induction n; intros; cbn; auto. rewrite IHn0; auto. }
  split; [rewrite E; apply seq_NoDup|split]; apply Forall_map, Forall_forall; intros i _; cbn; try discriminate.
  intros f [<-|[]]. cbn. rewrite Nat.eqb_refl; auto.
Qed.
Lemma push_frags s : flat_map kf_frags (map (push ref new) (seq s n)) = seq s n.
Proof. revert s. induction n; intros; cbn; auto. rewrite IHn0; auto. Qed.

Lemma macrocycle_total : 1 <= n -> exists k, macrocycle gmax order m n ref new = Ok k /\
  (forall f, In f (kf_frags k) -> f < n /\ kf_val k f = new f) /\ NoDup (kf_frags k).
Proof.
  intros Hn. unfold macrocycle.
  destruct (tournament_inv cp (fun l => inv0 l /\ sub (flat_map kf_frags l) (seq 0 n))) with (l := map (push ref new) (seq 0 n))
    as (k & E & (I0 & S)).
  - intros l [I0 S] _. destruct (round_inv l I0) as (l' & R & I' & S' & _). exists l'. repeat split; try apply I'; auto.
    eapply sub_trans; eauto.
  - intros E. apply (f_equal (@length _)) in E. rewrite map_length, seq_length in E. cbn in E. lia.
  - split; [apply push_inv0|]. rewrite push_frags. apply sub_refl.
  - exists k. split; auto. destruct I0 as (ND & NE & FR). inversion FR; subst. cbn in *. rewrite app_nil_r in *.
    split; auto. intros f Hf. split; auto. apply (sub_In _ _ _ S) in Hf. apply in_seq in Hf. lia.
Qed.

Definition inv1 (l : list (kf V)) : Prop := inv0 l /\
  (Permutation (flat_map kf_frags l) (seq 0 n) \/ exists k, l = [k] /\ forall f, f < n -> kf_val k f = new f).

Lemma long_two (l : list (kf V)) k1 k2 r1 r2 : Forall (fun k => kf_frags k <> []) l -> l = r1 ++ k1 :: k2 :: r2 ->
  3 <= length l -> length (kf_frags k1 ++ kf_frags k2) < length (flat_map kf_frags l).
Proof.
  intros NE -> L. rewrite flat_map_app. cbn. rewrite !app_length. 
  apply Forall_app in NE as [NE1 NE2]. inversion NE2 as [|? ? ? NE3]; subst. inversion NE3 as [|? ? ? NE4]; subst.
  rewrite app_length in L. cbn in L.
  assert (G : forall r : list (kf V), Forall (fun k => kf_frags k <> []) r -> length r <= length (flat_map kf_frags r)).
  { induction 1; cbn; auto. rewrite app_length. destruct (kf_frags x); cbn; [congruence|lia]. }
  specialize (G _ NE1) as G1. specialize (G _ NE4). lia.
Qed.

Lemma macrocycle_keeps : 1 <= n -> n - 1 <= m -> exists k, macrocycle gmax order m n ref new = Ok k /\
  forall f, f < n -> kf_val k f = new f.
Proof.
  intros Hn Hm. unfold macrocycle.
  destruct (tournament_inv cp inv1) with (l := map (push ref new) (seq 0 n)) as (k & E & (I0 & S)).
  - intros l [I0 [P|(k & -> & _)]] L; [|cbn in L; lia].
    destruct (round_inv l I0) as (l' & R & I' & S' & PP). exists l'. split; auto. split; auto.
    destruct (le_lt_dec 3 (length l)) as [L3|L3].
    + left. rewrite PP; auto. intros k1 k2 r1 r2 El.
      pose proof (long_two l k1 k2 r1 r2 (proj1 (proj2 I0)) El L3) as LL.
      rewrite (Permutation_length P), seq_length in LL. lia.
    + right. destruct l as [|a [|b [|]]]; cbn in L, L3; try lia.
      destruct I0 as (ND & NE & FR). cbn in ND, P. rewrite app_nil_r in *.
      inversion NE as [|? ? Na NE']; subst. inversion NE' as [|? ? Nb _]; subst.
      inversion FR as [|? ? Fa FR']; subst. inversion FR' as [|? ? Fb _]; subst.
      destruct (combine_spec a b Na Nb ND) as (k & E & _ & _ & _ & Vk).
      unfold round in R. cbn [comb_pairs bind] in R. rewrite E in R. cbn in R. inversion R; subst.
      exists k; split; auto. intros f Hf. rewrite Vk, orth_two.
      destruct (memb f (kf_frags b)) eqn:Mb; [apply memb_In in Mb; auto|].
      destruct (memb f (kf_frags a)) eqn:Ma; [apply memb_In in Ma; auto|].
      assert (Hi : In f (seq 0 n)) by (apply in_seq; lia).
      apply (Permutation_in _ (Permutation_sym P)), in_app_or in Hi as [Hi|Hi]; apply memb_In in Hi; congruence.
  - intros E. apply (f_equal (@length _)) in E. rewrite map_length, seq_length in E. cbn in E. lia.
  - split; [apply push_inv0|]. rewrite push_frags. auto.
  - exists k. split; auto. destruct S as [P|(k' & Ek & Hk)].
    + cbn in P. rewrite app_nil_r in P. destruct I0 as (_ & _ & FR). inversion FR; subst.
      intros f Hf. apply H1. apply (Permutation_in _ (Permutation_sym P)), in_seq. lia.
    + inversion Ek; subst; auto.
Qed.

Lemma macrocycle_marks : 1 <= n -> n <= m -> exists k, macrocycle gmax order m n ref new = Ok k /\
  Permutation (kf_frags k) (seq 0 n).
Proof.
  intros Hn Hm. unfold macrocycle.
  destruct (tournament_inv cp (fun l => inv0 l /\ Permutation (flat_map kf_frags l) (seq 0 n))) with (l := map (push ref new) (seq 0 n))
    as (k & E & (I0 & S)).
  - intros l [I0 P] L. destruct (round_inv l I0) as (l' & R & I' & S' & PP). exists l'. split; auto. split; auto.
    rewrite PP; auto. intros k1 k2 r1 r2 El.
    apply Permutation_length in P. rewrite seq_length in P. rewrite El, flat_map_app in P. cbn in P.
    rewrite !app_length in *. lia.
  - intros E. apply (f_equal (@length _)) in E. rewrite map_length, seq_length in E. cbn in E. lia.
  - split; [apply push_inv0|]. rewrite push_frags. auto.
  - exists k. split; auto. cbn in S. rewrite app_nil_r in S. auto.
Qed.
End C.

(** ** SortedIndexDict *)
Lemma zlist_eqb_eq a : forall b, zlist_eqb a b = true <-> a = b.
Proof.
  induction a as [|x a IH]; intros [|y b]; cbn; split; intros H; try discriminate; auto.
  - apply andb_true_iff in H as [H1 H2]. apply Z.eqb_eq in H1. apply IH in H2. congruence.
  - inversion H; subst. rewrite Z.eqb_refl. apply IH; auto.
Qed.
Lemma key_eqb_eq a b : key_eqb a b = true <-> a = b.
Proof.
  destruct a, b; cbn; try (split; discriminate).
  - rewrite zlist_eqb_eq; split; congruence.
  - rewrite Z.eqb_eq; split; congruence.
Qed.
Lemma key_eqb_refl k : key_eqb k k = true. Proof. apply key_eqb_eq; auto. Qed.
Lemma sorted_unique (l l' : list Z) : StronglySorted Z.le l -> StronglySorted Z.le l' -> Permutation l l' -> l = l'.
Proof.
  revert l'. induction l as [|x l IH]; intros l' S S' P.
  - apply Permutation_nil in P; auto.
  - destruct l' as [|y l']; [symmetry in P; apply Permutation_nil in P; discriminate|].
    inversion S as [|? ? Sl Fx]; subst. inversion S' as [|? ? Sl' Fy]; subst.
    assert (x = y).
    { assert (In x (y :: l')) by (apply (Permutation_in _ P); cbn; auto).
      assert (In y (x :: l)) by (apply (Permutation_in _ (Permutation_sym P)); cbn; auto).
      rewrite Forall_forall in Fx, Fy. destruct H as [|H]; auto. destruct H0 as [|H0]; auto.
      specialize (Fx _ H0). specialize (Fy _ H). lia. }
    subst y. apply Permutation_cons_inv in P. rewrite (IH l'); auto.
Qed.
Lemma normal_same a b : normal a = normal b <-> same_key a b.
Proof.
  destruct a as [l|x], b as [l'|y]; cbn; try (split; [discriminate|tauto]).
  - split.
    + intros H. assert (E : sort_z l = sort_z l') by congruence.
      rewrite <- (sort_z_perm l), E. apply sort_z_perm.
    + intros P. f_equal. apply sorted_unique; try apply sort_z_sorted. rewrite !sort_z_perm; auto.
  - split; congruence.
Qed.

Section D.
Context {V : Type}.
Implicit Types d : dict V.
Lemma get_set d k v k' : raw_get (raw_set d k v) k' = if key_eqb k' k then Some v else raw_get d k'.
Proof.
  induction d as [|[k0 v0] d IH]; cbn.
  - destruct (key_eqb k' k); auto.
  - destruct (key_eqb k k0) eqn:E; cbn.
    + apply key_eqb_eq in E; subst. destruct (key_eqb k' k0); auto.
    + rewrite IH. destruct (key_eqb k' k0) eqn:E0; auto. apply key_eqb_eq in E0; subst.
      destruct (key_eqb k0 k) eqn:E1; auto. apply key_eqb_eq in E1; subst. rewrite key_eqb_refl in E; discriminate.
Qed.
Lemma run_app h1 h2 d : fst (run d (h1 ++ h2)) = fst (run (fst (run d h1)) h2).
Proof.
  revert d. induction h1 as [|o h1 IH]; intros d; cbn; auto.
  destruct (exec d o) as [d' a]. specialize (IH d'). destruct (run d' (h1 ++ h2)), (run d' h1); cbn in *; auto.
Qed.
Lemma run_one d (o : op V) : fst (run d [o]) = fst (exec d o).
Proof. cbn. destruct (exec d o); auto. Qed.
Lemma run_get h k : 
  match raw_get (fst (run [] h)) (normal k) with
  | Some v => last_stored (V:=V) h k v
  | None => never_stored h k
  end.
Proof.
  induction h as [|o h IH] using rev_ind.
  - cbn. intros ? ? [].
  - rewrite run_app, run_one. set (d := fst (run [] h)) in *.
    assert (K : (forall k' v', o <> Store k' v') -> fst (exec d o) = d) by (destruct o; cbn; auto; intros N; destruct (N k0 v); auto).
    assert (D : (exists k' v', o = Store k' v') \/ (forall k' v', o <> Store k' v')).
    { destruct o; [left; eauto|right; congruence..]. }
    destruct D as [(k' & v' & ->)|N].
    + cbn [exec fst]. rewrite get_set. destruct (key_eqb (normal k) (normal k')) eqn:E.
      * apply key_eqb_eq, normal_same in E. exists h, k', []. repeat split; auto.
      * assert (NS : ~ same_key k k') by (intros S; apply normal_same, key_eqb_eq in S; congruence).
        destruct (raw_get d (normal k)) as [v|].
        -- destruct IH as (a & k0 & b & -> & S & B). exists a, k0, (b ++ [Store k' v']). rewrite <- app_assoc.
           repeat split; auto. intros k2 v2 H. apply in_app_or in H as [H|[H|[]]]; eauto. inversion H; subst; auto.
        -- intros k2 v2 H. apply in_app_or in H as [H|[H|[]]]; [eapply IH; eauto|]. inversion H; subst; auto.
    + rewrite K by auto. destruct (raw_get d (normal k)) as [v|].
      * destruct IH as (a & k0 & b & -> & S & B). exists a, k0, (b ++ [o]). rewrite <- app_assoc.
        repeat split; auto. intros k2 v2 H. apply in_app_or in H as [H|[H|[]]]; eauto. destruct (N _ _ H).
      * intros k2 v2 H. apply in_app_or in H as [H|[H|[]]]; [eapply IH; eauto|]. destruct (N _ _ H).
Qed.
Lemma last_stored_unique h k (v v' : V) : last_stored h k v -> last_stored h k v' -> v = v'.
Proof.
  intros (a & k1 & b & E & S & B) (a' & k2 & b' & E' & S' & B'). rewrite E in E'. clear E h.
  revert a' E'. induction a as [|x a IH]; intros [|x' a'] E'; cbn in E'.
  - congruence.
  - inversion E' as [[E1 E2]]. subst x' b. destruct (B k2 v'); auto. apply in_or_app; cbn; auto.
  - inversion E' as [[E1 E2]]. subst x b'. destruct (B' k1 v); auto. apply in_or_app; cbn; auto.
  - inversion E'. eapply IH; eauto.
Qed.
Lemma last_not_never h k (v : V) : last_stored h k v -> never_stored h k -> False.
Proof. intros (a & k1 & b & -> & S & B) N. apply (N k1 v); auto. apply in_or_app; cbn; auto. Qed.
End D.
