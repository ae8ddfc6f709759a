(** What the checks made by the constructor of the coupled cluster operator amount to. *)
From Coq Require Import List NArith ZArith Arith Bool Lia Sorting.Permutation.
From Verif Require Import Base BaseFacts Star FockSpec FockFacts PropFsucc UccModel UccProofs.
Import ListNotations.

Lemma insert_swap x y l : insert_n x (insert_n y l) = insert_n y (insert_n x l).
Proof.
  induction l as [|z l IH]; cbn [insert_n].
  - destruct (x <=? y)%nat eqn:E1, (y <=? x)%nat eqn:E2; try reflexivity; apply Nat.leb_le in E1 || apply Nat.leb_gt in E1; apply Nat.leb_le in E2 || apply Nat.leb_gt in E2; try lia.
    now replace y with x by lia.
  - destruct (y <=? z)%nat eqn:E1, (x <=? z)%nat eqn:E2; cbn [insert_n]; rewrite ?E1, ?E2;
      destruct (x <=? y)%nat eqn:E3, (y <=? x)%nat eqn:E4; cbn [insert_n]; rewrite ?E1, ?E2; 
      repeat match goal with H : (_ <=? _)%nat = true |- _ => apply Nat.leb_le in H | H : (_ <=? _)%nat = false |- _ => apply Nat.leb_gt in H end;
      try lia; try reflexivity; try (now rewrite IH); try (now replace y with x by lia).
Qed.
Lemma sort_perm_eq l l' : Permutation l l' -> sort_n l = sort_n l'.
Proof.
  induction 1; cbn [sort_n fold_right]; unfold sort_n in *; [reflexivity|now rewrite IHPermutation|apply insert_swap|congruence].
Qed.
Lemma insert_in x l y : In y (insert_n x l) <-> y = x \/ In y l.
Proof.
  induction l as [|z l IH]; cbn [insert_n]; [cbn; intuition|]. destruct (x <=? z)%nat; cbn [In]; [intuition|]. rewrite IH. intuition.
Qed.
Lemma sort_in l y : In y (sort_n l) <-> In y l.
Proof. induction l as [|z l IH]; cbn [sort_n fold_right]; [tauto|]. rewrite insert_in. unfold sort_n in IH. rewrite IH. cbn. intuition. Qed.
Lemma sort_same a i : NoDup a -> NoDup i -> (sort_n a = sort_n i <-> same_set a i).
Proof.
  intros Na Ni. split.
  - intros E q. now rewrite <- (sort_in a), <- (sort_in i), E.
  - intros H. apply sort_perm_eq. now apply NoDup_Permutation.
Qed.
Lemma nodupb_ok l : nodupb l = true <-> NoDup l.
Proof.
  induction l as [|x l IH]; cbn [nodupb]; [split; [constructor|reflexivity]|]. rewrite andb_true_iff, negb_true_iff, IH. split.
  - intros [H1 H2]. constructor; [|assumption]. intros C. assert (existsb (Nat.eqb x) l = true); [|congruence]. apply existsb_exists. exists x. split; [assumption|apply Nat.eqb_refl].
  - intros H. inversion H; subst. split; [|assumption]. apply not_true_iff_false. intros C. apply existsb_exists in C. destruct C as [y [Hy E]]. apply Nat.eqb_eq in E. now subst.
Qed.
Lemma list_eqb_ok a b : list_eqb a b = true <-> a = b.
Proof. unfold list_eqb. destruct (list_eq_dec Nat.eq_dec a b); split; congruence. Qed.

Lemma sane_gens_ok norb gens : sane_gens norb gens = Ok tt <-> Forall (sane norb) gens.
Proof.
  induction gens as [|[a i] r IH]; [split; [constructor|reflexivity]|]. cbn [sane_gens].
  assert (B : forall l, forallb (fun q => (q <? norb)%nat) l = true <-> below norb l).
  { intros l. rewrite forallb_forall. unfold below. rewrite Forall_forall. split; intros H q Hq; apply Nat.ltb_lt; auto. }
  assert (S : sane norb (a, i) <-> i ++ a <> [] /\ below norb (i ++ a) /\ NoDup a /\ NoDup i /\
     (match a, i with _ :: _, _ :: _ => negb (list_eqb (sort_n a) (sort_n i)) | _, _ => true end) = true).
  { unfold sane. cbn [fst snd]. unfold below. rewrite Forall_app. split.
    - intros [H1 [H2 [H3 [H4 H5]]]]. split; [|split; [tauto|split; [assumption|split; [assumption|]]]].
      + intros C. apply app_eq_nil in C. destruct C; subst. apply H5. intros q. tauto.
      + destruct a, i; try reflexivity. apply negb_true_iff, not_true_iff_false. rewrite list_eqb_ok. rewrite sort_same by assumption. assumption.
    - intros [H1 [[H2 H2'] [H3 [H4 H5]]]]. repeat split; try assumption. intros C. destruct a as [|x a], i as [|y i].
      + now apply H1.
      + apply (C y). now left.
      + apply (C x). now left.
      + apply negb_true_iff, not_true_iff_false in H5. apply H5. rewrite list_eqb_ok. apply sort_same; assumption. }
  split.
  - intros H. destruct (i ++ a) as [|z l] eqn:E; [discriminate|]. rewrite <- E in *. 
    destruct (forallb _ _) eqn:F1 in H; cbn [py_assert] in H; [|discriminate]. destruct (nodupb a) eqn:F2 in H; cbn [py_assert] in H; [|discriminate].
    destruct (nodupb i) eqn:F3 in H; cbn [py_assert] in H; [|discriminate].
    match type of H with py_assert ?b _ = _ => destruct b eqn:F4 end; cbn [py_assert] in H; [|discriminate].
    constructor; [|now apply IH]. apply S. split; [congruence|]. split; [now apply B|]. split; [now apply nodupb_ok|]. split; [now apply nodupb_ok|]. reflexivity.
  - intros H. inversion H; subst. apply S in H2. destruct H2 as [H4 [H5 [H6 [H7 H8]]]]. destruct (i ++ a) as [|z l] eqn:E; [congruence|]. rewrite <- E in *.
    apply B in H5. apply nodupb_ok in H6, H7. rewrite H5, H6, H7, H8. cbn [py_assert]. now apply IH.
Qed.

(** the same operator up to sign: the two index sets agree, perhaps exchanged *)
Definition alike (g h : list nat * list nat) : Prop :=
  (same_set (fst g) (fst h) /\ same_set (snd g) (snd h)) \/ (same_set (fst g) (snd h) /\ same_set (snd g) (fst h)).
Lemma of_nat_inj l : forall l', map Z.of_nat l = map Z.of_nat l' -> l = l'.
Proof. induction l as [|x l IH]; intros [|y l'] H; try discriminate; [reflexivity|]. cbn in H. injection H as H1 H2. apply Nat2Z.inj in H1. f_equal; auto. Qed.
Lemma key_alike norb g h : sane norb g -> sane norb h -> (key g = key h <-> alike g h).
Proof.
  intros [_ [_ [N1 [N2 _]]]] [_ [_ [N3 [N4 _]]]]. unfold alike.
  rewrite <- !(sort_same (fst g)), <- !(sort_same (snd g)) by assumption. unfold key. cbv zeta.
  set (a := sort_n (fst g)). set (i := sort_n (snd g)). set (a' := sort_n (fst h)). set (i' := sort_n (snd h)).
  pose proof (lexcmp_antisym (map Z.of_nat i) (map Z.of_nat a)) as A1. pose proof (lexcmp_antisym (map Z.of_nat i') (map Z.of_nat a')) as A2.
  split.
  - destruct (lexcmp (map Z.of_nat i) (map Z.of_nat a)), (lexcmp (map Z.of_nat i') (map Z.of_nat a')); intros H; injection H as H1 H2; apply of_nat_inj in H1, H2; auto.
  - intros [[H1 H2]|[H1 H2]]; rewrite H1, H2; [reflexivity|].
    rewrite A2. destruct (lexcmp (map Z.of_nat i') (map Z.of_nat a')) eqn:E; cbn [CompOpp]; try reflexivity.
    apply lexcmp_eq in E. now rewrite E.
Qed.
Definition unalike (gens : list (list nat * list nat)) : Prop := ForallOrdPairs (fun g h => ~ alike g h) gens.
Lemma nodup_len {A} (dec : forall x y : A, {x = y} + {x <> y}) l : length (nodup dec l) = length l <-> NoDup l.
Proof.
  split.
  - intros H. apply (@NoDup_incl_NoDup A (nodup dec l)); [apply NoDup_nodup|rewrite H; apply le_n|]. intros x Hx. now apply nodup_In in Hx.
  - intros H. now rewrite nodup_fixed_point.
Qed.
Lemma keys_ok norb gens : Forall (sane norb) gens -> (NoDup (map key gens) <-> unalike gens).
Proof.
  unfold unalike. induction 1 as [|g l Hg Hl IH]; cbn [map]; [split; constructor|]. split.
  - intros H. inversion H; subst. constructor; [|now apply IH]. apply Forall_forall. intros h Hh C. apply H2. apply in_map_iff. exists h. split; [|assumption].
    symmetry. rewrite Forall_forall in Hl. apply (key_alike norb); auto.
  - intros H. inversion H; subst. constructor; [|now apply IH]. intros C. apply in_map_iff in C. destruct C as [h [E Hh]]. rewrite Forall_forall in H2, Hl. apply (H2 h Hh).
    apply (key_alike norb); auto.
Qed.
Lemma sanity_ok norb gens : assert_sanity norb gens = Ok tt <-> Forall (sane norb) gens /\ unalike gens.
Proof.
  unfold assert_sanity. rewrite <- sane_gens_ok. destruct (sane_gens norb gens) as [[]|e] eqn:E; cbn [bind]; [|split; [discriminate|intros [C _]; discriminate]].
  apply sane_gens_ok in E. rewrite <- (keys_ok norb gens E). rewrite <- (nodup_len key_dec), map_length.
  destruct (length (nodup key_dec (map key gens)) =? length gens)%nat eqn:L; cbn [py_assert].
  - apply Nat.eqb_eq in L. tauto.
  - apply Nat.eqb_neq in L. split; [discriminate|tauto].
Qed.
