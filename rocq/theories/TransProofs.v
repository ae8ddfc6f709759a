(** bigdim.transpose and the SI-vector transpositions. *)
From Coq Require Import List Lia Bool Arith Sorting.Permutation Sorting.Sorted.
From Verif Require Import Base BaseFacts AddrModel AddrFacts AddrSpec AddrProofs TransModel TransFacts.
Import ListNotations.
Local Open Scope nat_scope.

Lemma nodup_b_true l : NoDup l -> nodup_b l = true.
Proof.
  induction 1 as [|x l Hx H IH]; cbn; auto. apply exb_false in Hx. rewrite Hx, IH. auto.
Qed.

Section T.
Context {A : Type} (d : A).
Implicit Types (a vec : list A).

Lemma transpose_C a shape axes :
  Forall (fun x => 0 < x) shape -> length a = prodN shape ->
  Permutation axes (seq 0 (length shape)) ->
  exists out, bigdim_transpose d a shape axes false = Ok out /\ length out = length a /\
    forall idx, in_range shape idx ->
      nth_error out (rowmajor (pick axes shape) (pick axes idx)) = nth_error a (rowmajor shape idx).
Proof.
  intros Hpos Hl HP. unfold bigdim_transpose.
  rewrite Hl, Nat.eqb_refl. cbn [py_assert].
  rewrite (Permutation_length HP), seq_length, Nat.eqb_refl. cbn [py_assert].
  rewrite nodup_b_true by (apply (Permutation_NoDup (Permutation_sym HP)), seq_NoDup). cbn [py_assert].
  destruct (bigloop_all d shape a Hpos Hl axes HP) as (out & E & L & H).
  exists out. rewrite E. split; [auto|]. split; [lia|auto].
Qed.

Lemma pick_rev axes l : Forall (fun i => i < length l) axes ->
  pick (map (fun i => length l - 1 - i) (rev axes)) (rev l) = rev (pick axes l).
Proof.
  intros HF. unfold pick. rewrite <- map_rev, map_map. apply map_ext_in. intros i Hi.
  apply in_rev in Hi. rewrite Forall_forall in HF. specialize (HF i Hi).
  rewrite rev_nth by lia. f_equal. lia.
Qed.

Lemma perm_below axes n : Permutation axes (seq 0 n) -> Forall (fun i => i < n) axes.
Proof.
  intros HP. apply Forall_forall. intros i Hi. apply (Permutation_in _ HP), in_seq in Hi. lia.
Qed.

Lemma perm_flip axes n : Permutation axes (seq 0 n) ->
  Permutation (map (fun i => n - 1 - i) (rev axes)) (seq 0 n).
Proof.
  intros HP. transitivity (map (fun i => n - 1 - i) (seq 0 n)).
  - apply Permutation_map. transitivity axes; auto. apply Permutation_sym, Permutation_rev.
  - apply NoDup_Permutation.
    + apply NoDup_nth_error. rewrite map_length, seq_length. intros i j Hi.
      rewrite !nth_error_map. rewrite (nth_error_nth_some _ i 0) by (rewrite seq_length; auto).
      rewrite seq_nth by auto.
      destruct (le_lt_dec n j).
      * rewrite (proj2 (nth_error_None (seq 0 n) j)) by (rewrite seq_length; auto). discriminate.
      * rewrite (nth_error_nth_some _ j 0) by (rewrite seq_length; auto). rewrite seq_nth by auto.
        cbn. intros H. injection H as H. lia.
    + apply seq_NoDup.
    + intros x. rewrite in_map_iff, in_seq. split.
      * intros (i & <- & Hi). apply in_seq in Hi. lia.
      * intros Hx. exists (n - 1 - x). rewrite in_seq. lia.
Qed.

Lemma in_range_rev dims ds : in_range dims ds -> in_range (rev dims) (rev ds).
Proof.
  induction 1; cbn; [constructor|]. apply Forall2_app; auto.
Qed.

Lemma transpose_F a shape axes :
  Forall (fun x => 0 < x) shape -> length a = prodN shape ->
  Permutation axes (seq 0 (length shape)) ->
  exists out, bigdim_transpose d a shape axes true = Ok out /\ length out = length a /\
    forall idx, in_range shape idx ->
      nth_error out (colmajor (pick axes shape) (pick axes idx)) = nth_error a (colmajor shape idx).
Proof.
  intros Hpos Hl HP. unfold bigdim_transpose.
  rewrite Hl, Nat.eqb_refl. cbn [py_assert].
  rewrite (Permutation_length HP), seq_length, Nat.eqb_refl. cbn [py_assert].
  rewrite nodup_b_true by (apply (Permutation_NoDup (Permutation_sym HP)), seq_NoDup). cbn [py_assert].
  pose proof (perm_below _ _ HP) as HF.
  destruct (bigloop_all d (rev shape) a) with (axes := map (fun i => length shape - 1 - i) (rev axes))
    as (out & E & L & H).
  - apply Forall_rev; auto.
  - rewrite prodN_rev; auto.
  - rewrite rev_length. apply perm_flip; auto.
  - exists out. rewrite E. split; [auto|]. split; [lia|].
    intros idx Hidx. pose proof (in_range_length _ _ Hidx) as Ln.
    rewrite !colmajor_rev by (rewrite ?pick_length; auto).
    rewrite <- (H (rev idx) (in_range_rev _ _ Hidx)).
    rewrite pick_rev by auto.
    rewrite <- Ln, pick_rev by (rewrite Ln; auto). auto.
Qed.

(** A zero extent makes the loop raise ValueError. *)
Lemma bigloop_zero : forall axes p shape a, NoDup axes -> Forall (fun i => i < length shape) axes ->
  (exists i, In i axes /\ nth i shape 0 = 0) -> bigloop d axes p shape a = Raise ValueError.
Proof.
  induction axes as [|i axes IH]; intros p shape a Hnd HF (i0 & Hin & Hz); [destruct Hin|].
  inversion Hnd as [|? ? Hni Hnd']; subst. inversion HF as [|? ? Hi HF']; subst.
  cbn [bigloop]. rewrite (nth_error_nth_some _ _ 0) by auto.
  destruct (Nat.eq_dec i i0) as [->|Hne].
  - rewrite Hz. rewrite Nat.mul_0_r. reflexivity.
  - destruct Hin as [->|Hin]; [congruence|].
    unfold last_extent. destruct (Nat.eqb _ 0); [auto|]. destruct (Nat.eqb _ 0); [|auto].
    cbn [bind]. apply IH; auto.
    + rewrite upd_length. auto.
    + exists i0. split; auto. apply nth_error_nth. rewrite nth_error_upd_neq by auto.
      rewrite (nth_error_nth_some _ _ 0), Hz; auto. rewrite Forall_forall in HF'; auto.
Qed.

Lemma transpose_zero a shape axes forder :
  In 0 shape -> length a = 0 -> Permutation axes (seq 0 (length shape)) ->
  bigdim_transpose d a shape axes forder = Raise ValueError.
Proof.
  intros Hz Hl HP. unfold bigdim_transpose.
  assert (E : prodN shape = 0) by (clear -Hz; induction shape; cbn in *; [tauto|]; destruct Hz; [lia|rewrite IHshape; auto; lia]).
  rewrite Hl, E. cbn [Nat.eqb py_assert].
  rewrite (Permutation_length HP), seq_length, Nat.eqb_refl. cbn [py_assert].
  rewrite nodup_b_true by (apply (Permutation_NoDup (Permutation_sym HP)), seq_NoDup). cbn [py_assert].
  apply In_nth with (d := 0) in Hz as (i & Hi & Hz).
  destruct forder; apply bigloop_zero.
  - apply (Permutation_NoDup (Permutation_sym (perm_flip _ _ HP))), seq_NoDup.
  - rewrite rev_length. apply perm_below, perm_flip; auto.
  - exists (length shape - 1 - i). split.
    + apply (Permutation_in _ (Permutation_sym (perm_flip _ _ HP))), in_seq. lia.
    + rewrite rev_nth by lia. etransitivity; [|exact Hz]. f_equal. lia.
  - apply (Permutation_NoDup (Permutation_sym HP)), seq_NoDup.
  - apply perm_below; auto.
  - exists i. split; auto. apply (Permutation_in _ (Permutation_sym HP)), in_seq. lia.
Qed.

(** Two arrays that agree at every position of an index range are equal. *)
Lemma colmajor_ext (a b : list A) shape : length a = prodN shape -> length b = prodN shape ->
  (forall idx, in_range shape idx -> nth_error a (colmajor shape idx) = nth_error b (colmajor shape idx)) ->
  a = b.
Proof.
  intros La Lb H. apply list_ext. intros k. destruct (le_lt_dec (prodN shape) k).
  - rewrite !(proj2 (nth_error_None _ _)) by lia. auto.
  - destruct (colmajor_surj shape k) as (ds & Hd & <-); auto.
Qed.

(** ** argsort of a permutation *)
Lemma insert_pair_perm x l : Permutation (insert_pair x l) (x :: l).
Proof.
  induction l as [|y l IH]; cbn; auto. destruct (fst x <=? fst y); auto.
  transitivity (y :: x :: l); [constructor; auto|constructor].
Qed.
Lemma sort_pairs_perm l : Permutation (sort_pairs l) l.
Proof. induction l; cbn; auto. rewrite insert_pair_perm. constructor; auto. Qed.

Lemma insert_pair_sorted x l : StronglySorted (fun p1 p2 => fst p1 <= fst p2) l ->
  StronglySorted (fun p1 p2 => fst p1 <= fst p2) (insert_pair x l).
Proof.
  induction 1 as [|y l HS IH HF]; cbn; [repeat constructor|].
  destruct (Nat.leb_spec (fst x) (fst y)).
  - constructor; [constructor; auto|]. constructor; auto.
    rewrite Forall_forall in *. intros z Hz. specialize (HF z Hz). lia.
  - constructor; auto. rewrite Forall_forall in *. intros z Hz.
    apply (Permutation_in _ (insert_pair_perm x l)) in Hz as [<-|Hz]; [lia|auto].
Qed.
Lemma sort_pairs_sorted l : StronglySorted (fun p1 p2 => fst p1 <= fst p2) (sort_pairs l).
Proof. induction l; cbn; [constructor|]. apply insert_pair_sorted; auto. Qed.

Lemma sorted_seq l n : StronglySorted le l -> Permutation l (seq 0 n) -> l = seq 0 n.
Proof.
  assert (G : forall l b n, StronglySorted le l -> Permutation l (seq b n) -> l = seq b n).
  { clear l n. intros l b n; revert l b; induction n as [|n IH]; intros l b HS HP; cbn in *.
    - apply Permutation_sym, Permutation_nil in HP; auto.
    - destruct HS as [|x l HS HF].
      + apply Permutation_nil in HP; discriminate.
      + assert (x = b) as ->.
        { assert (Hx : In x (b :: seq (S b) n)) by (apply (Permutation_in _ HP); left; auto).
          assert (Hb : In b (x :: l)) by (apply (Permutation_in _ (Permutation_sym HP)); left; auto).
          destruct Hx as [->|Hx]; auto. apply in_seq in Hx.
          destruct Hb as [->|Hb]; auto. rewrite Forall_forall in HF. specialize (HF b Hb). lia. }
        f_equal. apply IH; auto. apply Permutation_cons_inv in HP; auto. }
  apply G.
Qed.

Lemma map_fst_comb {B C} (l1 : list B) (l2 : list C) : length l1 = length l2 -> map fst (combine l1 l2) = l1.
Proof. revert l2; induction l1; intros [|y l2] H; cbn in *; try lia; auto. f_equal; apply IHl1; lia. Qed.

Lemma combine_seq_in (l : list nat) v i : In (v, i) (combine l (seq 0 (length l))) ->
  nth_error l i = Some v.
Proof.
  assert (G : forall b, In (v, i) (combine l (seq b (length l))) -> b <= i /\ nth_error l (i - b) = Some v).
  { induction l as [|x l IH]; intros b; cbn; [tauto|]. intros [H|H].
    - injection H as -> ->. rewrite Nat.sub_diag. auto.
    - apply IH in H as [H1 H2]. split; [lia|]. replace (i - b) with (S (i - S b)) by lia. auto. }
  intros H. apply G in H as [_ H]. rewrite Nat.sub_0_r in H; auto.
Qed.

Lemma sorted_fst l : StronglySorted (fun p1 p2 : nat * nat => fst p1 <= fst p2) l -> StronglySorted le (map fst l).
Proof.
  induction 1 as [|x r HS IH HF]; cbn; constructor; auto. apply Forall_map. auto.
Qed.

Lemma argsort_pairs axes n : Permutation axes (seq 0 n) ->
  let ps := sort_pairs (combine axes (seq 0 (length axes))) in
  map fst ps = seq 0 n /\ forall v i, In (v, i) ps -> nth_error axes i = Some v.
Proof.
  intros HP ps.
  assert (Hps : Permutation ps (combine axes (seq 0 (length axes)))) by apply sort_pairs_perm.
  split.
  - apply sorted_seq.
    + apply sorted_fst, sort_pairs_sorted.
    + transitivity axes; auto. apply (Permutation_map fst) in Hps.
      rewrite map_fst_comb in Hps by (rewrite seq_length; auto). auto.
  - intros v i Hin. apply (Permutation_in _ Hps) in Hin. apply combine_seq_in in Hin; auto.
Qed.

Lemma pick_argsort axes l : Permutation axes (seq 0 (length l)) ->
  pick (argsort axes) (pick axes l) = l.
Proof.
  intros HP. destruct (argsort_pairs axes _ HP) as [Hfst Hin].
  unfold argsort. set (ps := sort_pairs (combine axes (seq 0 (length axes)))) in *.
  unfold pick at 1. rewrite map_map.
  transitivity (map (fun p => nth (fst p) l 0) ps).
  - apply map_ext_in. intros [v i] Hp. cbn [fst snd]. apply Hin in Hp.
    apply nth_error_nth. unfold pick. rewrite nth_error_map, Hp. auto.
  - rewrite <- (map_map fst (fun i => nth i l 0)), Hfst. apply pick_seq.
Qed.

Lemma argsort_length axes : length (argsort axes) = length axes.
Proof.
  unfold argsort. rewrite map_length, (Permutation_length (sort_pairs_perm _)).
  rewrite combine_length, seq_length. lia.
Qed.

(** position v of argsort holds the place of v *)
Lemma argsort_nth axes n v : Permutation axes (seq 0 n) -> v < n ->
  nth_error axes (nth v (argsort axes) 0) = Some v.
Proof.
  intros HP Hv. destruct (argsort_pairs axes _ HP) as [Hfst Hin].
  unfold argsort. set (ps := sort_pairs (combine axes (seq 0 (length axes)))) in *.
  assert (Lps : length ps = n) by (rewrite <- (map_length fst), Hfst, seq_length; auto).
  assert (E : nth_error ps v = Some (nth v ps (0, 0))) by (apply nth_error_nth_some; lia).
  destruct (nth v ps (0,0)) as [v' i] eqn:Ep.
  assert (v' = v) as ->.
  { assert (Hm : nth_error (map fst ps) v = Some v') by (rewrite nth_error_map, E; auto).
    rewrite Hfst in Hm. rewrite (nth_error_nth_some _ _ 0) in Hm by (rewrite seq_length; auto).
    rewrite seq_nth in Hm by auto. cbn in Hm. congruence. }
  assert (Hn : nth v (map snd ps) 0 = i) by (apply nth_error_nth; rewrite nth_error_map, E; auto).
  rewrite Hn. apply Hin. apply nth_error_In in E; auto.
Qed.

Lemma argsort_perm axes n : Permutation axes (seq 0 n) -> Permutation (argsort axes) (seq 0 n).
Proof.
  intros HP. unfold argsort.
  transitivity (map snd (combine axes (seq 0 (length axes)))).
  - apply Permutation_map, sort_pairs_perm.
  - rewrite (Permutation_length HP), seq_length.
    assert (L : length axes = length (seq 0 n)) by (rewrite (Permutation_length HP); auto).
    revert L. clear. revert axes. induction (seq 0 n); intros [|x axes] H; cbn in *; try lia; auto.
Qed.

Lemma pick_argsort' axes l : Permutation axes (seq 0 (length l)) ->
  pick axes (pick (argsort axes) l) = l.
Proof.
  intros HP.
  assert (La : length axes = length l) by (rewrite (Permutation_length HP), seq_length; auto).
  assert (Hnd : NoDup axes) by (apply (Permutation_NoDup (Permutation_sym HP)), seq_NoDup).
  apply list_ext. intros j. unfold pick. rewrite nth_error_map.
  destruct (le_lt_dec (length l) j) as [Hj|Hj].
  - rewrite !(proj2 (nth_error_None _ _)) by lia. auto.
  - rewrite (nth_error_nth_some _ _ 0) by lia. cbn [option_map].
    set (v := nth j axes 0).
    assert (Hv : nth_error axes j = Some v) by (apply nth_error_nth_some; lia).
    assert (Hvl : v < length l).
    { apply nth_error_In, (Permutation_in _ HP), in_seq in Hv. lia. }
    pose proof (argsort_nth axes _ v HP Hvl) as Hn.
    assert (Ej : nth v (argsort axes) 0 = j).
    { rewrite NoDup_nth_error in Hnd. symmetry. apply Hnd; [lia|]. congruence. }
    symmetry. rewrite (nth_error_nth_some _ _ 0) by auto. f_equal.
    symmetry. apply nth_error_nth. rewrite nth_error_map.
    rewrite (nth_error_nth_some _ _ 0) by (rewrite argsort_length; lia). rewrite Ej. auto.
Qed.

(** ** slow fragments *)
Lemma slow_axes_perm nfrags inv : NoDup inv -> Forall (fun i => i < nfrags) inv ->
  Permutation (slow_axes nfrags inv) (seq 0 (nfrags + 1)).
Proof.
  intros Hnd HF. rewrite seq_app. unfold slow_axes. rewrite app_assoc.
  apply Permutation_app; [|apply Permutation_refl].
  apply NoDup_Permutation.
  - apply NoDup_app_intro; auto.
    + apply NoDup_filter, seq_NoDup.
    + intros x Hx Hc. apply filter_In in Hx as [_ Hx]. apply negb_true_iff, exb_false in Hx. auto.
  - apply seq_NoDup.
  - intros x. rewrite in_app_iff, filter_In, in_seq, negb_true_iff, exb_false.
    rewrite Forall_forall in HF. split.
    + intros [[Hx _]|Hx]; [lia|]. specialize (HF x Hx); lia.
    + intros Hx. destruct (in_dec Nat.eq_dec x inv); auto.
Qed.

Definition env nfrags inv := filter (fun i => negb (existsb (Nat.eqb i) inv)) (seq 0 nfrags).

Lemma slow_axes_removelast nfrags inv : removelast (slow_axes nfrags inv) = env nfrags inv ++ inv.
Proof. unfold slow_axes. rewrite app_assoc. rewrite removelast_app by discriminate. cbn. apply app_nil_r. Qed.

Lemma pick_app_lt axes l x : Forall (fun i => i < length l) axes -> pick axes (l ++ x) = pick axes l.
Proof.
  intros HF. unfold pick. apply map_ext_in. intros i Hi. rewrite Forall_forall in HF.
  apply app_nth1; auto.
Qed.

Lemma env_lt nfrags inv : Forall (fun i => i < nfrags) (env nfrags inv).
Proof. apply Forall_forall. intros i Hi. apply filter_In in Hi as [Hi _]. apply in_seq in Hi. lia. Qed.

Lemma pick_slow lroots inv k : Forall (fun i => i < length lroots) inv ->
  pick (slow_axes (length lroots) inv) (lroots ++ [k])
  = pick (env (length lroots) inv) lroots ++ pick inv lroots ++ [k].
Proof.
  intros HF. unfold slow_axes. rewrite !pick_app. fold (env (length lroots) inv).
  rewrite !pick_app_lt by (auto; apply env_lt). f_equal. f_equal. unfold pick. cbn [map].
  rewrite app_nth2, Nat.sub_diag by lia. auto.
Qed.

Section Slow.
Variables (lroots inv : list nat) (nsi : nat).
Hypothesis Hpos : Forall (fun x => 0 < x) lroots.
Hypothesis Hnd : NoDup inv.
Hypothesis HF : Forall (fun i => i < length lroots) inv.
Hypothesis Hsi : 0 < nsi.
Let nprods := prodN lroots.
Let axes := slow_axes (length lroots) inv.
Let shape := lroots ++ [nsi].

Lemma nprods_pos : 0 < nprods.
Proof. apply prodN_pos; auto. Qed.

Lemma shape_pos : Forall (fun x => 0 < x) shape.
Proof. apply Forall_app; split; auto. Qed.

Lemma shape_prod : prodN shape = nprods * nsi.
Proof. unfold shape. rewrite prodN_app. cbn. fold nprods. lia. Qed.

Lemma axes_perm : Permutation axes (seq 0 (length shape)).
Proof. unfold shape. rewrite app_length. apply slow_axes_perm; auto. Qed.

Lemma rows_cols : nprods = prodN (pick (env (length lroots) inv) lroots) * prodN (pick inv lroots).
Proof.
  unfold nprods. rewrite <- prodN_app, <- pick_app. rewrite <- (pick_seq lroots) at 1.
  apply prodN_perm. unfold pick. apply Permutation_map.
  pose proof (slow_axes_perm (length lroots) inv Hnd HF) as HP.
  unfold slow_axes in HP. fold (env (length lroots) inv) in HP. rewrite app_assoc, seq_app in HP.
  apply Permutation_app_inv_r in HP. apply Permutation_sym; auto.
Qed.

Lemma make_slow_spec vec : length vec = nprods * nsi ->
  exists out, make_fragments_slow d vec lroots inv
     = Ok (out, (prodN (pick (env (length lroots) inv) lroots), prodN (pick inv lroots), nsi)) /\
    length out = length vec /\
    forall idx k, in_range lroots idx -> k < nsi ->
      nth_error out (colmajor (pick (env (length lroots) inv) lroots) (pick (env (length lroots) inv) idx)
                     + prodN (pick (env (length lroots) inv) lroots) *
                       (colmajor (pick inv lroots) (pick inv idx) + prodN (pick inv lroots) * k))
      = nth_error vec (colmajor lroots idx + nprods * k).
Proof.
  intros Hl. pose proof nprods_pos as Hp. unfold make_fragments_slow. fold nprods.
  rewrite Hl. rewrite (Nat.mul_comm nprods nsi), Nat.mod_mul by lia. cbn [Nat.eqb py_assert].
  rewrite Nat.div_mul by lia. fold shape axes.
  destruct (transpose_F vec shape axes) as (out & E & Lo & H).
  - apply shape_pos.
  - rewrite shape_prod; auto.
  - apply axes_perm.
  - rewrite E. cbn [bind]. exists out. split.
    + f_equal. f_equal. f_equal. f_equal. rewrite rows_cols. unfold pick.
      apply Nat.div_mul.
      assert (0 < prodN (map (fun i => nth i lroots 0) inv)); [|lia].
      apply prodN_pos. apply Forall_map. eapply Forall_impl; [|exact HF]. cbn. intros i Hi.
      rewrite Forall_forall in Hpos. apply Hpos, nth_In; auto.
    + split; [lia|]. intros idx k Hidx Hk.
      specialize (H (idx ++ [k])). unfold shape in H at 3. rewrite colmajor_app in H by (apply in_range_length; auto).
      pose proof (in_range_length _ _ Hidx) as Ln.
      assert (Hr : in_range shape (idx ++ [k])).
      { apply Forall2_app; auto. }
      specialize (H Hr). cbn [colmajor] in H. fold nprods in H.
      rewrite Nat.mul_0_r, Nat.add_0_r in H. rewrite <- H.
      unfold axes, shape. rewrite pick_slow by auto.
      rewrite <- Ln. rewrite pick_slow by (rewrite Ln; auto). rewrite Ln.
      rewrite !colmajor_app by (rewrite !pick_length; auto). cbn [colmajor].
      rewrite Nat.mul_0_r, Nat.add_0_r. auto.
Qed.

Lemma with_slow_spec vec : length vec = nprods * nsi ->
  exists out, with_slow_fragments d vec lroots inv = Ok out /\ length out = length vec /\
    (forall idx, in_range shape idx ->
      nth_error out (colmajor shape idx) = nth_error vec (colmajor (pick axes shape) (pick axes idx))) /\
    (forall idx, in_range (pick axes shape) idx ->
      nth_error out (colmajor shape (pick (argsort axes) idx)) = nth_error vec (colmajor (pick axes shape) idx)).
Proof.
  intros Hl. pose proof nprods_pos as Hp. unfold with_slow_fragments. fold nprods.
  rewrite Hl. rewrite (Nat.mul_comm nprods nsi), Nat.mod_mul by lia. cbn [Nat.eqb py_assert].
  rewrite Nat.div_mul by lia. rewrite slow_axes_removelast.
  change (map (fun i : nat => nth i lroots 0) (env (length lroots) inv ++ inv))
    with (pick (env (length lroots) inv ++ inv) lroots).
  assert (Esh : pick (env (length lroots) inv ++ inv) lroots ++ [nsi] = pick axes shape).
  { unfold axes, shape. rewrite pick_slow by auto. rewrite pick_app, app_assoc; auto. }
  rewrite Esh. fold axes.
  pose proof axes_perm as HP.
  assert (Hla : length (pick axes shape) = length shape)
    by (rewrite pick_length, (Permutation_length HP), seq_length; auto).
  destruct (transpose_F vec (pick axes shape) (argsort axes)) as (out & E & Lo & H).
  - unfold pick. apply Forall_map. pose proof shape_pos as HS.
    eapply Forall_impl; [|exact (perm_below _ _ HP)]. cbn. intros i Hi.
    rewrite Forall_forall in HS. apply HS, nth_In; auto.
  - rewrite Hl. rewrite <- shape_prod. rewrite <- (pick_seq shape) at 1.
    unfold pick. apply prodN_perm, Permutation_map, Permutation_sym; auto.
  - rewrite Hla. apply argsort_perm; auto.
  - exists out. rewrite E. split; [auto|]. split; [lia|].
    assert (H2 : forall idx, in_range (pick axes shape) idx ->
      nth_error out (colmajor shape (pick (argsort axes) idx)) = nth_error vec (colmajor (pick axes shape) idx)).
    { intros idx Hidx. rewrite <- (H idx Hidx). rewrite (pick_argsort axes shape HP). auto. }
    split; [|exact H2].
    intros idx Hidx. pose proof (in_range_length _ _ Hidx) as Ln.
    specialize (H2 (pick axes idx)). rewrite pick_argsort in H2 by (rewrite Ln; auto).
    apply H2. apply in_range_pick; auto. apply perm_below; auto.
Qed.

Lemma slow_round_trip vec : length vec = nprods * nsi ->
  exists out sh, make_fragments_slow d vec lroots inv = Ok (out, sh) /\
    with_slow_fragments d out lroots inv = Ok vec.
Proof.
  intros Hl. destruct (make_slow_spec vec Hl) as (out & E & Lo & H).
  eexists out, _. split; [exact E|].
  destruct (with_slow_spec out ltac:(lia)) as (w & Ew & Lw & Hw & _).
  rewrite Ew. f_equal. apply (colmajor_ext w vec shape); [rewrite shape_prod; lia|rewrite shape_prod; auto|].
  intros idx Hidx. rewrite (Hw idx Hidx).
  unfold shape in Hidx. apply Forall2_app_inv_l in Hidx as (i1 & i2 & Hi1 & Hi2 & ->).
  inversion Hi2 as [|? k ? ? Hk Hnil]; subst. inversion Hnil; subst.
  pose proof (in_range_length _ _ Hi1) as Ln.
  unfold axes, shape. rewrite pick_slow by auto.
  rewrite <- Ln. rewrite pick_slow by (rewrite Ln; auto). rewrite Ln.
  rewrite !colmajor_app by (rewrite ?pick_length; auto). cbn [colmajor].
  rewrite !Nat.mul_0_r, !Nat.add_0_r. fold nprods. rewrite <- (H i1 k Hi1 Hk). auto.
Qed.

Lemma slow_round_trip' vec : length vec = nprods * nsi ->
  exists out, with_slow_fragments d vec lroots inv = Ok out /\
    exists sh, make_fragments_slow d out lroots inv = Ok (vec, sh).
Proof.
  intros Hl. destruct (with_slow_spec vec Hl) as (out & E & Lo & _ & H).
  exists out. split; [exact E|].
  pose proof nprods_pos as Hp. unfold make_fragments_slow. fold nprods.
  rewrite Lo, Hl. rewrite (Nat.mul_comm nprods nsi), Nat.mod_mul by lia. cbn [Nat.eqb py_assert].
  rewrite Nat.div_mul by lia. fold shape axes.
  pose proof axes_perm as HP.
  destruct (transpose_F out shape axes) as (w & Ew & Lw & Hw).
  - apply shape_pos.
  - rewrite shape_prod; lia.
  - auto.
  - rewrite Ew. cbn [bind]. eexists. f_equal. f_equal.
    assert (Hla : length (pick axes shape) = length shape)
      by (rewrite pick_length, (Permutation_length HP), seq_length; auto).
    assert (Ep : prodN (pick axes shape) = nprods * nsi).
    { rewrite <- shape_prod. rewrite <- (pick_seq shape) at 2.
      unfold pick. apply prodN_perm, Permutation_map; auto. }
    apply (colmajor_ext w vec (pick axes shape)); [lia|lia|].
    intros idx Hidx. pose proof (in_range_length _ _ Hidx) as Ln.
    rewrite <- (H idx Hidx).
    assert (Hr : in_range shape (pick (argsort axes) idx)).
    { rewrite <- (pick_argsort axes shape HP) at 1. apply in_range_pick; auto.
      rewrite Hla. apply perm_below, argsort_perm; auto. }
    rewrite <- (Hw _ Hr). rewrite pick_argsort' by (rewrite Ln, Hla; auto). auto.
Qed.
End Slow.
End T.
