(** Lemmas for unique interactions. *)
From Coq Require Import List ZArith Bool Arith Lia Permutation Sorted.
From Verif Require Import Base BaseFacts SCModel SCPrint ExcModel ExcFacts UexcModel.
Import ListNotations.
Local Open Scope Z_scope.

Lemma insert_v_in x l y : In y (insert_v x l) <-> y = x \/ In y l.
Proof.
  induction l as [|z l IH]; cbn; [intuition congruence|]. destruct (Z.ltb_spec x z); cbn; [intuition congruence|]. destruct (Z.eqb_spec x z); cbn; [subst; intuition congruence|].
  rewrite IH. intuition congruence.
Qed.
Lemma unique_v_in l x : In x (unique_v l) <-> In x l.
Proof. induction l; cbn; [tauto|]. rewrite insert_v_in, IHl. intuition congruence. Qed.
Lemma unique_v_sorted l : StronglySorted Z.lt (unique_v l).
Proof.
  induction l as [|x l IH]; cbn; [constructor|]. induction IH as [|y m H1 IH H2]; cbn; [repeat constructor|].
  destruct (Z.ltb_spec x y).
  - constructor; [now constructor|]. constructor; [lia|]. rewrite Forall_forall in *. intros z Hz. specialize (H2 _ Hz). lia.
  - destruct (Z.eqb_spec x y); [now constructor|]. constructor; [exact IH|]. rewrite Forall_forall in *. intros z Hz. apply insert_v_in in Hz as [->|Hz]; [lia | auto].
Qed.
Lemma nth_map_seq {X} (d : X) l : map (fun k => nth k l d) (seq 0 (length l)) = l.
Proof.
  induction l as [|x l IH]; [reflexivity|]. cbn [length seq map nth]. f_equal. rewrite <- seq_shift, map_map. exact IH.
Qed.
Lemma sorted_nth l : StronglySorted Z.lt l -> forall i j, (i < j < length l)%nat -> nth i l 0 < nth j l 0.
Proof.
  induction 1 as [|x l H1 IH H2]; intros i j L; [cbn in L; lia|]. destruct j as [|j]; [lia|]. cbn in L. destruct i as [|i]; cbn.
  - rewrite Forall_forall in H2. apply H2, nth_In. lia.
  - apply IH. lia.
Qed.
Lemma argsort_sorted_id l : StronglySorted Z.lt l -> argsort_v l = seq 0 (length l).
Proof.
  intros H. unfold argsort_v. apply (sorted_eq (before_asym (fun i => nth i l 0))); [apply argsort_sorted | | apply argsort_perm].
  pose proof (sorted_nth l H) as L. assert (G : forall n s, (s + n <= length l)%nat -> StronglySorted (before (fun i => nth i l 0)) (seq s n)).
  { induction n as [|n IH]; intros s Hs; [constructor|]. cbn. constructor; [apply IH; lia|]. apply Forall_forall. intros y Hy. apply in_seq in Hy. left. apply L. lia. }
  apply G. lia.
Qed.

(** positions of a value *)
Definition group (l : list Z) (v : Z) : list nat := filter (fun i => nth i l 0 =? v) (seq 0 (length l)).
Lemma in_group l v i : In i (group l v) <-> (i < length l)%nat /\ nth i l 0 = v.
Proof. unfold group. rewrite filter_In, in_seq, Z.eqb_eq. intuition lia. Qed.
Lemma group_length l v : length (group l v) = count_v v l.
Proof.
  unfold group, count_v. transitivity (length (filter (Z.eqb v) (map (fun k => nth k l 0) (seq 0 (length l))))); [|now rewrite nth_map_seq].
  generalize (seq 0 (length l)). induction l0 as [|k m IH]; [reflexivity|]. cbn.
  rewrite (Z.eqb_sym v). destruct (nth k l 0 =? v); cbn; auto.
Qed.
Lemma groups_nodup l us : StronglySorted Z.lt us -> NoDup (concat (map (group l) us)).
Proof.
  induction 1 as [|v us H1 IH H2]; cbn; [constructor|]. apply NoDup_app_intro; [apply NoDup_filter, seq_NoDup | exact IH|].
  intros x Hx Hy. apply in_group in Hx as [_ Hx]. apply in_concat in Hy as (g & Hg & Hy). apply in_map_iff in Hg as (w & <- & Hw). apply in_group in Hy as [_ Hy].
  rewrite Forall_forall in H2. specialize (H2 _ Hw). lia.
Qed.
Lemma groups_perm l : Permutation (concat (map (group l) (unique_v l))) (seq 0 (length l)).
Proof.
  apply NoDup_Permutation; [apply groups_nodup, unique_v_sorted | apply seq_NoDup|]. intros x. rewrite in_seq, in_concat. split.
  - intros (g & Hg & Hx). apply in_map_iff in Hg as (v & <- & _). apply in_group in Hx. lia.
  - intros Hx. exists (group l (nth x l 0)). split; [|apply in_group; split; [lia | reflexivity]]. apply in_map. apply unique_v_in, nth_In. lia.
Qed.
Lemma argsort_groups l : argsort_v l = concat (map (group l) (unique_v l)).
Proof.
  apply (sorted_eq (before_asym (fun i => nth i l 0))); [apply argsort_sorted | | unfold argsort_v; rewrite argsort_perm; symmetry; apply groups_perm].
  pose proof (unique_v_sorted l) as S. revert S. generalize (unique_v l). induction l0 as [|v us IH]; intros S; [constructor|]. inversion S as [|? ? S1 S2]; subst. cbn. apply ssorted_app.
  - unfold group. pose proof (filter_sorted (fun i => nth i l 0 =? v) _ (seq_sorted (length l) 0)) as F.
    assert (G : forall i, In i (filter (fun i => nth i l 0 =? v) (seq 0 (length l))) -> nth i l 0 = v) by (intros i Hi; apply filter_In in Hi as [_ Hi]; now apply Z.eqb_eq).
    revert G. induction F as [|x m F1 IHF F2]; intros G; [constructor|]. constructor; [apply IHF; intros; apply G; now right|].
    rewrite Forall_forall in *. intros y Hy. right. rewrite (G x), (G y); [|now right|now left]. split; [reflexivity | now apply F2].
  - now apply IH.
  - intros x y Hx Hy. apply in_group in Hx as [_ Hx]. apply in_concat in Hy as (g & Hg & Hy). apply in_map_iff in Hg as (w & <- & Hw). apply in_group in Hy as [_ Hy].
    rewrite Forall_forall in S2. specialize (S2 _ Hw). left. lia.
Qed.
Lemma np_split_concat gs : forall pre, np_split (pre ++ concat gs) (length pre) (cumsum (length pre) (map (@length nat) gs)) = gs ++ [[]].
Proof.
  induction gs as [|g gs IH]; intros pre; cbn [map cumsum np_split concat].
  - rewrite skipn_app, skipn_all, Nat.sub_diag. reflexivity.
  - cbn [app]. f_equal.
    + replace (length pre + length g - length pre)%nat with (length g) by lia. rewrite skipn_app, skipn_all, Nat.sub_diag. cbn. rewrite firstn_app, Nat.sub_diag, firstn_all. cbn. apply app_nil_r.
    + specialize (IH (pre ++ g)). rewrite app_length, <- app_assoc in IH. exact IH.
Qed.
Lemma combine_extra {X Y} (a : list X) (b : list Y) x : length a = length b -> combine (a ++ [x]) b = combine a b.
Proof. revert b; induction a as [|y a IH]; intros [|z b] L; cbn in *; try lia; [reflexivity|]. f_equal. apply IH. lia. Qed.
Lemma combine_map2 {X Y Z'} (f : X -> Y) (g : X -> Z') l : combine (map f l) (map g l) = map (fun x => (f x, g x)) l.
Proof. induction l; cbn; [reflexivity|]. now f_equal. Qed.

Section S.
  Variables (uroot : Z -> Z -> Z) (ltri : bool) (exc : list erow).
  Let fp := fst (fprints uroot ltri exc).
  Let lt := snd (fprints uroot ltri exc).
  Let U v := nth (first_pos v lt) exc dflt.
  Definition img (v : Z) (i : nat) : nat * nat :=
    let r := nth i exc dflt in if negb (nth i fp 0 =? nth (first_pos v lt) fp 0) then (e_ket r, e_bra r) else (e_bra r, e_ket r).
  Lemma find_eq : find_unique_exc uroot ltri exc = (map U (unique_v lt), map (fun v => (key_of (U v), map (img v) (group lt v))) (unique_v lt)).
  Proof.
    unfold find_unique_exc. rewrite (surjective_pairing (fprints uroot ltri exc)). fold fp lt. rewrite (argsort_sorted_id (unique_v lt) (unique_v_sorted lt)).
    assert (M : forall {X} (g : Z -> X), map (fun k => g (nth k (unique_v lt) 0)) (seq 0 (length (unique_v lt))) = map g (unique_v lt)).
    { intros X g. transitivity (map g (map (fun k => nth k (unique_v lt) 0) (seq 0 (length (unique_v lt))))); [now rewrite map_map | now rewrite nth_map_seq]. }
    rewrite (M nat (fun v => first_pos v lt)), (M nat (fun v => count_v v lt)). rewrite map_map. unfold U. apply f_equal2; [reflexivity|]. rewrite argsort_groups.
    assert (C : map (fun v => count_v v lt) (unique_v lt) = map (@length nat) (map (group lt) (unique_v lt))).
    { rewrite map_map. apply map_ext. intros v. symmetry. apply group_length. }
    rewrite C. pose proof (np_split_concat (map (group lt) (unique_v lt)) []) as S. cbn [app length] in S. rewrite S.
    rewrite combine_extra by now rewrite !map_length. rewrite combine_map2, map_map. apply map_ext. intros v. reflexivity.
  Qed.
  Lemma first_pos_spec v : forall l, In v l -> (first_pos v l < length l)%nat /\ nth (first_pos v l) l 0 = v.
  Proof.
    induction l as [|x l IH]; [intros []|]. intros Hi. cbn. destruct (Z.eqb_spec v x); [split; [lia | congruence]|]. destruct Hi as [Hi|Hi]; [congruence|]. destruct (IH Hi). split; [lia | assumption].
  Qed.
  Lemma fp_len : length fp = length exc /\ length lt = length exc.
  Proof. unfold fp, lt, fprints. destruct ltri; cbn; now rewrite !map_length. Qed.
  Definition fpr (r : erow) := fp_row uroot (Z.of_nat (e_bra r)) (Z.of_nat (e_ket r)) (map Z.of_nat (e_frags r)).
  Lemma fp_nth i : (i < length exc)%nat -> nth i fp 0 = fst (fpr (nth i exc dflt)).
  Proof.
    intros L. unfold fp, fprints. cbn [fst]. rewrite map_map.
    rewrite (nth_indep _ _ (fst (fpr dflt))) by (rewrite map_length; lia). apply (map_nth (fun r => fst (fpr r))).
  Qed.
  Lemma lt_nth i : (i < length exc)%nat -> nth i lt 0 = if ltri then snd (fpr (nth i exc dflt)) else fst (fpr (nth i exc dflt)).
  Proof.
    intros L. unfold lt, fprints. cbn [snd]. destruct ltri; rewrite map_map.
    - rewrite (nth_indep _ _ (snd (fpr dflt))) by (rewrite map_length; lia). apply (map_nth (fun r => snd (fpr r))).
    - rewrite (nth_indep _ _ (fst (fpr dflt))) by (rewrite map_length; lia). apply (map_nth (fun r => fst (fpr r))).
  Qed.
End S.
