(** The second division of the tables leaves every interaction on its own, in another order. *)
From Coq Require Import List ZArith Bool Arith Lia Permutation Sorted.
From Verif Require Import Base BaseFacts SCModel SCPrint ExcModel ExcFacts UexcModel UexcFacts PropUexc StdmModel HamModel HamLoop.
Import ListNotations.
Local Open Scope nat_scope.

Lemma unique_by_eq l (exc : list erow) : find_unique_by l exc =
  (map (fun v => nth (first_pos v l) exc dflt) (unique_v l),
   map (fun v => (key_of (nth (first_pos v l) exc dflt), map (fun i => let r := nth i exc dflt in (e_bra r, e_ket r)) (group l v))) (unique_v l)).
Proof.
  unfold find_unique_by. rewrite (argsort_sorted_id (unique_v l) (unique_v_sorted l)).
  assert (M : forall {X} (g : Z -> X), map (fun k => g (nth k (unique_v l) 0%Z)) (seq 0 (length (unique_v l))) = map g (unique_v l)).
  { intros X g. transitivity (map g (map (fun k => nth k (unique_v l) 0%Z) (seq 0 (length (unique_v l))))); [now rewrite map_map | now rewrite nth_map_seq]. }
  rewrite (M nat (fun v => first_pos v l)), (M nat (fun v => count_v v l)). rewrite map_map. apply f_equal2; [reflexivity|]. rewrite argsort_groups.
  assert (C : map (fun v => count_v v l) (unique_v l) = map (@length nat) (map (group l) (unique_v l))).
  { rewrite map_map. apply map_ext. intros v. symmetry. apply group_length. }
  rewrite C. pose proof (np_split_concat (map (group l) (unique_v l)) []) as S. cbn [app length] in S. rewrite S.
  rewrite combine_extra by now rewrite !map_length. rewrite combine_map2, map_map. apply map_ext. intros v. reflexivity.
Qed.
Lemma first_pos_at v : forall l, In v l -> (first_pos v l < length l) /\ nth (first_pos v l) l 0%Z = v.
Proof.
  induction l as [|x l IH]; [intros []|]. intros Hi. cbn. destruct (Z.eqb_spec v x); [split; [lia | congruence]|]. destruct Hi as [Hi|Hi]; [congruence|]. destruct (IH Hi). split; [lia | assumption].
Qed.
Lemma group_single l v : NoDup l -> In v l -> group l v = [first_pos v l].
Proof.
  intros N I. destruct (first_pos_at v l I) as [P1 P2]. assert (Ng : NoDup (group l v)) by (apply NoDup_filter, seq_NoDup).
  assert (E : forall i, In i (group l v) <-> i = first_pos v l).
  { intros i. rewrite in_group. split; [|intros ->; auto]. intros [H1 H2]. rewrite (NoDup_nth l 0%Z) in N. apply N; auto. congruence. }
  apply Permutation_length_1_inv. apply NoDup_Permutation; [repeat constructor; cbn; tauto | exact Ng|]. intros i. rewrite E. cbn. split; [intros [<-|[]]; reflexivity | intros ->; now left].
Qed.
Lemma unique_by_distinct l (exc : list erow) : length l = length exc -> NoDup l ->
  Permutation (fst (find_unique_by l exc)) exc /\ snd (find_unique_by l exc) = map (fun u => (key_of u, [(e_bra u, e_ket u)])) (fst (find_unique_by l exc)).
Proof.
  intros L N. rewrite unique_by_eq. cbn [fst snd]. split.
  - rewrite <- (map_map (fun v => first_pos v l) (fun i => nth i exc dflt)).
    assert (E : concat (map (group l) (unique_v l)) = map (fun v => first_pos v l) (unique_v l)).
    { assert (G : forall us, (forall v, In v us -> In v l) -> concat (map (group l) us) = map (fun v => first_pos v l) us).
      { induction us as [|v us IH]; intros H; [reflexivity|]. cbn [map concat]. rewrite group_single by (auto; apply H; now left). rewrite IH by (intros; apply H; now right). reflexivity. }
      apply G. intros v Hv. now apply unique_v_in. }
    rewrite <- E. rewrite (Permutation_map (fun i => nth i exc dflt) (groups_perm l)), L, nth_map_seq. reflexivity.
  - rewrite map_map. apply map_ext_in. intros v Hv. apply (unique_v_in l v) in Hv. rewrite group_single by assumption. reflexivity.
Qed.

Lemma fpr_words uroot r r' : sfrags r = sfrags r' -> roots uroot (e_bra r) r = roots uroot (e_bra r') r' -> roots uroot (e_ket r) r = roots uroot (e_ket r') r' -> fpr uroot r = fpr uroot r'.
Proof.
  unfold roots. intros E1 E2 E3. unfold fpr, fp_row. rewrite !bubblesort_sort_z. fold (sfrags r) (sfrags r'). rewrite E2, E3, E1. reflexivity.
Qed.
(** two unique interactions of a table differ in their words *)
Lemma unique_words uroot keep t n : (forall r, In r t -> length (e_frags r) = n) -> NoDup (map (words uroot) (fst (find_unique_exc uroot true (filter keep t)))).
Proof.
  intros Hn. rewrite find_eq. cbn [fst]. set (exc := filter keep t). set (l := snd (fprints uroot true exc)). rewrite map_map.
  assert (Hx : forall r, In r exc -> length (e_frags r) = n) by (intros r Hr; apply Hn; now apply filter_In in Hr).
  assert (Nu : NoDup (unique_v l)).
  { pose proof (unique_v_sorted l) as S. clear - S. induction S as [|x l0 H1 IH H2]; constructor; auto. intros Hx. rewrite Forall_forall in H2. specialize (H2 _ Hx). lia. }
  assert (G : forall us, NoDup us -> (forall v, In v us -> In v l) -> NoDup (map (fun v => words uroot (nth (first_pos v l) exc dflt)) us)).
  { induction 1 as [|v us Nv Hu IH]; intros H; cbn; constructor; [|apply IH; intros; apply H; now right].
    rewrite in_map_iff. intros (v' & E & Hv'). apply Nv. replace v with v'; [exact Hv'|].
    destruct (first_pos_at v l (H v (or_introl eq_refl))) as [P1 P2]. destruct (first_pos_at v' l (H v' (or_intror Hv'))) as [P1' P2'].
    destruct (fp_len uroot true exc) as [_ Ll]. fold l in Ll. rewrite Ll in P1, P1'.
    pose proof (lt_nth uroot true exc _ P1) as Q. pose proof (lt_nth uroot true exc _ P1') as Q'. fold l in Q, Q'. rewrite P2 in Q. rewrite P2' in Q'. rewrite Q, Q'.
    set (r := nth (first_pos v l) exc dflt) in *. set (r' := nth (first_pos v' l) exc dflt) in *.
    assert (I : In r exc) by (apply nth_In; exact P1). assert (I' : In r' exc) by (apply nth_In; exact P1').
    unfold words in E. apply app3_inv in E as (E1 & E2 & E3); [|now rewrite !sfrags_len, !Hx by assumption | unfold roots; rewrite !map_length, !sfrags_len, !Hx by assumption; reflexivity].
    rewrite (fpr_words uroot r' r E1 E2 E3). reflexivity. }
  apply G; [exact Nu|]. intros v Hv. now apply unique_v_in.
Qed.
