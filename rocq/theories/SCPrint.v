(** Fingerprints: the sort used and the order of bra and ket do not matter. *)
From Coq Require Import List ZArith Lia Bool Arith Sorting.Permutation Sorting.Sorted.
From Verif Require Import Base BaseFacts SCModel.
Import ListNotations.
Local Open Scope Z_scope.

Lemma bubble_pass_perm n : forall l, Permutation (bubble_pass n l) l.
Proof.
  induction n as [|n IH]; intros l; cbn; auto. destruct l as [|x [|y r]]; auto.
  destruct (y <? x); rewrite IH; auto. apply perm_swap.
Qed.

Lemma bubble_pass_length n l : length (bubble_pass n l) = length l.
Proof. apply Permutation_length, bubble_pass_perm. Qed.

Lemma bubble_pass_skipn n : forall l, skipn (S n) (bubble_pass n l) = skipn (S n) l.
Proof.
  induction n as [|n IH]; intros l; auto. destruct l as [|x [|y r]]; auto.
  cbn [bubble_pass]. destruct (y <? x); [change (skipn (S n) (bubble_pass n (x :: r)) = skipn (S n) (y :: r))
    |change (skipn (S n) (bubble_pass n (y :: r)) = skipn (S n) (y :: r))]; rewrite IH; auto.
Qed.

Lemma bubble_pass_firstn n l : Permutation (firstn (S n) (bubble_pass n l)) (firstn (S n) l).
Proof.
  apply Permutation_app_inv_r with (skipn (S n) l). rewrite <- (bubble_pass_skipn n l) at 1.
  rewrite !firstn_skipn. apply bubble_pass_perm.
Qed.

(** after a pass over positions 0..n the largest of them is at position n *)
Lemma bubble_pass_max n : forall l v, nth_error (bubble_pass n l) n = Some v ->
  Forall (fun x => x <= v) (firstn (S n) (bubble_pass n l)).
Proof.
  induction n as [|n IH]; intros l v H.
  - cbn in *. destruct l; [discriminate|]. injection H as ->. repeat constructor. lia.
  - destruct l as [|x [|y r]]; cbn [bubble_pass] in *.
    + discriminate.
    + destruct n; discriminate.
    + assert (G : forall a b, a <= b -> nth_error (a :: bubble_pass n (b :: r)) (S n) = Some v ->
        Forall (fun x => x <= v) (firstn (S (S n)) (a :: bubble_pass n (b :: r)))).
      { intros a b Hab H'. cbn [nth_error] in H'. specialize (IH (b :: r) v H').
        change (firstn (S (S n)) (a :: bubble_pass n (b :: r))) with (a :: firstn (S n) (bubble_pass n (b :: r))).
        constructor; auto.
        assert (Hin : In b (firstn (S n) (bubble_pass n (b :: r)))).
        { apply (Permutation_in _ (Permutation_sym (bubble_pass_firstn n (b :: r)))). left. auto. }
        rewrite Forall_forall in IH. specialize (IH b Hin). lia. }
      destruct (Z.ltb_spec y x); apply G; auto; lia.
Qed.

(** state after i outer iterations: the last i positions are sorted and hold the largest elements *)
Definition tail_ok (i : nat) (l : list Z) : Prop :=
  let k := (length l - i)%nat in
  StronglySorted Z.le (skipn k l) /\ (forall x y, In x (firstn k l) -> In y (skipn k l) -> x <= y).

Lemma pass_tail_ok i l : (S i < length l)%nat -> tail_ok i l -> tail_ok (S i) (bubble_pass (length l - i - 1) l).
Proof.
  intros Hi [Hs Hm]. unfold tail_ok in *. rewrite bubble_pass_length.
  set (n := (length l - i - 1)%nat) in *.
  replace (length l - i)%nat with (S n) in * by lia. replace (length l - S i)%nat with n by lia.
  assert (Hlen := bubble_pass_length n l).
  destruct (nth_error (bubble_pass n l) n) as [v|] eqn:E; [|apply nth_error_None in E; lia].
  assert (Hmax := bubble_pass_max n l v E).
  assert (Esk : skipn n (bubble_pass n l) = v :: skipn (S n) l).
  { rewrite <- (bubble_pass_skipn n l). revert E. generalize (bubble_pass n l). generalize n. clear.
    induction n as [|n IH]; intros l E; destruct l; try discriminate; cbn in E.
    - injection E as ->. auto.
    - cbn [skipn]. rewrite (IH l E). auto. }
  assert (Pf := bubble_pass_firstn n l).
  assert (Hfn : firstn (S n) (bubble_pass n l) = firstn n (bubble_pass n l) ++ [v]).
  { revert E. generalize (bubble_pass n l). generalize n. clear.
    induction n as [|n IH]; intros l E; destruct l; try discriminate; cbn in E.
    - injection E as ->. auto.
    - change (z :: firstn (S n) l = z :: firstn n l ++ [v]). rewrite (IH l E). auto. }
  rewrite Esk. split.
  - constructor; auto. apply Forall_forall. intros y Hy. apply Hm; auto.
    apply (Permutation_in _ Pf). rewrite Hfn. apply in_or_app. right. left. auto.
  - intros x y Hx [<-|Hy].
    + rewrite Forall_forall in Hmax. apply Hmax. rewrite Hfn. apply in_or_app. auto.
    + apply Hm; auto. apply (Permutation_in _ Pf). rewrite Hfn. apply in_or_app. auto.
Qed.

Lemma bubble_outer_spec k : forall i l len, len = length l -> (i + k < len)%nat -> tail_ok i l ->
  Permutation (bubble_outer k len i l) l /\ tail_ok (i + k) (bubble_outer k len i l).
Proof.
  induction k as [|k IH]; intros i l len El Hi Ht; cbn [bubble_outer].
  - rewrite Nat.add_0_r. auto.
  - assert (Hp := pass_tail_ok i l ltac:(lia) Ht).
    destruct (IH (S i) (bubble_pass (len - i - 1) l) len) as [P T].
    + rewrite bubble_pass_length. auto.
    + lia.
    + rewrite El. exact Hp.
    + split; [rewrite P; apply bubble_pass_perm|]. replace (i + S k)%nat with (S i + k)%nat by lia. auto.
Qed.

Lemma bubblesort_sorts l : Permutation (bubblesort l) l /\ StronglySorted Z.le (bubblesort l).
Proof.
  unfold bubblesort. destruct l as [|x r].
  - cbn. split; constructor.
  - destruct (bubble_outer_spec (length (x :: r) - 1) 0 (x :: r) (length (x :: r)) eq_refl) as [P T].
    + cbn. lia.
    + unfold tail_ok. rewrite Nat.sub_0_r, skipn_all, firstn_all. split; [constructor|intros ? ? _ []].
    + split; auto. assert (Hl := Permutation_length P).
      set (b := bubble_outer (length (x :: r) - 1) (length (x :: r)) 0 (x :: r)) in *.
      unfold tail_ok in T. rewrite Hl in T. cbn [length] in T.
      replace (S (length r) - (0 + (S (length r) - 1)))%nat with 1%nat in T by lia.
      destruct b as [|y b]; [discriminate Hl|]. cbn [skipn firstn] in T. destruct T as [T1 T2].
      constructor; auto. apply Forall_forall. intros z Hz. apply T2; auto. left; auto.
Qed.

Lemma sorted_perm_eq l1 : forall l2, StronglySorted Z.le l1 -> StronglySorted Z.le l2 ->
  Permutation l1 l2 -> l1 = l2.
Proof.
  induction l1 as [|x l1 IH]; intros l2 H1 H2 Hp.
  - apply Permutation_nil in Hp. auto.
  - destruct l2 as [|y l2]; [apply Permutation_sym, Permutation_nil in Hp; discriminate|].
    inversion H1 as [|? ? S1 F1]; subst. inversion H2 as [|? ? S2 F2]; subst.
    rewrite Forall_forall in F1, F2.
    assert (E : x = y).
    { assert (Hx : In x (y :: l2)) by (apply (Permutation_in _ Hp); left; auto).
      assert (Hy : In y (x :: l1)) by (apply (Permutation_in _ (Permutation_sym Hp)); left; auto).
      destruct Hx as [->|Hx]; auto. destruct Hy as [->|Hy]; auto.
      specialize (F1 _ Hy). specialize (F2 _ Hx). lia. }
    subst y. f_equal. apply IH; auto. eapply Permutation_cons_inv; eauto.
Qed.

Lemma bubblesort_sort_z l : bubblesort l = sort_z l.
Proof.
  destruct (bubblesort_sorts l) as [P S]. apply sorted_perm_eq; auto; [apply sort_z_sorted|].
  rewrite P, sort_z_perm. auto.
Qed.

Lemma bubblesort_perm l1 l2 : Permutation l1 l2 -> bubblesort l1 = bubblesort l2.
Proof.
  intros H. destruct (bubblesort_sorts l1) as [P1 S1], (bubblesort_sorts l2) as [P2 S2].
  apply sorted_perm_eq; auto. rewrite P1, P2. auto.
Qed.

(** trans: bra is lexicographically below ket *)
Lemma fp_trans_false b : forall k t, fp_trans b k false t = t.
Proof.
  induction b as [|x b IH]; intros [|y k] t; cbn; auto.
  destruct (x =? y); apply IH.
Qed.

Lemma fp_trans_lex b : forall k, length b = length k ->
  fp_trans b k true false = match lexcmp b k with Lt => true | _ => false end.
Proof.
  induction b as [|x b IH]; intros [|y k] H; cbn in *; try discriminate; auto.
  destruct (Z.compare_spec x y) as [->|Hc|Hc].
  - rewrite Z.eqb_refl, Z.ltb_irrefl. apply IH. lia.
  - destruct (Z.eqb_spec x y); [lia|]. destruct (Z.ltb_spec x y); [|lia]. apply fp_trans_false.
  - destruct (Z.eqb_spec x y); [lia|]. destruct (Z.ltb_spec x y); [lia|]. apply fp_trans_false.
Qed.

Lemma fp_swap uroot bra ket frags : snd (fp_row uroot bra ket frags) = snd (fp_row uroot ket bra frags).
Proof.
  unfold fp_row. cbn [snd]. rewrite !fp_trans_lex by (rewrite !map_length; auto).
  rewrite (lexcmp_antisym (map (uroot bra) (bubblesort frags)) (map (uroot ket) (bubblesort frags))).
  destruct (lexcmp (map (uroot bra) (bubblesort frags)) (map (uroot ket) (bubblesort frags))) eqn:E; cbn; auto.
  apply lexcmp_eq in E. rewrite E. auto.
Qed.

Lemma fp_frag_order uroot bra ket f1 f2 : Permutation f1 f2 -> fp_row uroot bra ket f1 = fp_row uroot bra ket f2.
Proof. intros H. unfold fp_row. rewrite (bubblesort_perm f1 f2 H). auto. Qed.

Lemma fp_spectators uroot uroot' bra ket bra' ket' frags :
  (forall f, In f frags -> uroot bra f = uroot' bra' f /\ uroot ket f = uroot' ket' f) ->
  fp_row uroot bra ket frags = fp_row uroot' bra' ket' frags.
Proof.
  intros H. unfold fp_row. destruct (bubblesort_sorts frags) as [P _].
  assert (E1 : map (uroot bra) (bubblesort frags) = map (uroot' bra') (bubblesort frags)).
  { apply map_ext_in. intros f Hf. apply H. apply (Permutation_in _ P Hf). }
  assert (E2 : map (uroot ket) (bubblesort frags) = map (uroot' ket') (bubblesort frags)).
  { apply map_ext_in. intros f Hf. apply H. apply (Permutation_in _ P Hf). }
  rewrite E1, E2. auto.
Qed.
