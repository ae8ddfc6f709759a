(** The chunked transposition is the transposition. *)
From Coq Require Import List Lia Bool Arith Sorting.Permutation Sorting.Sorted.
From Verif Require Import Base BaseFacts AddrModel AddrFacts AddrSpec AddrProofs TransModel.
Import ListNotations.
Local Open Scope nat_scope.

(** Reorder the entries of a shape or index. *)
Definition pick (axes l : list nat) : list nat := map (fun i => nth i l 0) axes.

(** ** concatenation of equal blocks *)
Lemma nth_error_flat_map_seq {A} (f : nat -> list A) n m x k :
  (forall i, i < n -> length (f i) = m) -> x < n -> k < m ->
  nth_error (flat_map f (seq 0 n)) (x * m + k) = nth_error (f x) k.
Proof.
  intros Hl Hx Hk.
  assert (G : forall b x, (forall i, b <= i < b + n -> length (f i) = m) -> x < n ->
    nth_error (flat_map f (seq b n)) (x * m + k) = nth_error (f (b + x)) k).
  { clear x Hx Hl. induction n as [|n IH]; intros b x Hl Hx; [lia|]. cbn [seq flat_map].
    destruct x as [|x].
    - rewrite nth_error_app1 by (rewrite Hl; lia). rewrite Nat.add_0_r. auto.
    - rewrite nth_error_app2 by (rewrite Hl; nia). rewrite Hl by lia.
      replace (S x * m + k - m) with (x * m + k) by nia.
      rewrite IH; [|intros; apply Hl; lia|lia]. f_equal. f_equal. lia. }
  apply (G 0); auto. intros; apply Hl; lia.
Qed.

Lemma flat_map_seq_length {A} (f : nat -> list A) n m :
  (forall i, i < n -> length (f i) = m) -> length (flat_map f (seq 0 n)) = n * m.
Proof.
  intros Hl. assert (G : forall b, (forall i, b <= i < b + n -> length (f i) = m) ->
    length (flat_map f (seq b n)) = n * m).
  { clear Hl. induction n as [|n IH]; intros b Hl; cbn; auto.
    rewrite app_length, IH, Hl; auto; try lia. intros; apply Hl; lia. }
  apply G. intros; apply Hl; lia.
Qed.

Section Swap.
Context {A : Type} (d : A).

Lemma swap_axes_length p q r s (a : list A) : length (swap_axes d p q r s a) = p * (r * (q * s)).
Proof.
  unfold swap_axes. apply flat_map_seq_length. intros. apply flat_map_seq_length. intros.
  apply flat_map_seq_length. intros. rewrite map_length, seq_length; auto.
Qed.

Lemma swap_axes_nth p q r s (a : list A) x y z w :
  x < p -> y < q -> z < r -> w < s -> length a = p * q * r * s ->
  nth_error (swap_axes d p q r s a) (((x * r + z) * q + y) * s + w)
  = nth_error a (((x * q + y) * r + z) * s + w).
Proof.
  intros Hx Hy Hz Hw Hl. unfold swap_axes.
  replace (((x * r + z) * q + y) * s + w) with (x * (r * (q * s)) + (z * (q * s) + (y * s + w))) by nia.
  rewrite nth_error_flat_map_seq; auto.
  2:{ intros. apply flat_map_seq_length. intros. apply flat_map_seq_length. intros.
      rewrite map_length, seq_length; auto. }
  2:{ assert (y * s + w < q * s) by nia. nia. }
  rewrite nth_error_flat_map_seq; auto.
  2:{ intros. apply flat_map_seq_length. intros. rewrite map_length, seq_length; auto. }
  2:{ nia. }
  rewrite nth_error_flat_map_seq; auto.
  2:{ intros. rewrite map_length, seq_length; auto. }
  rewrite nth_error_map. rewrite (nth_error_nth_some _ _ 0) by (rewrite seq_length; auto).
  rewrite seq_nth by auto. cbn [option_map Nat.add].
  symmetry. apply nth_error_nth_some. rewrite Hl.
  assert (x * q + y < p * q) by nia.
  assert ((x * q + y) * r + z < p * q * r) by nia. nia.
Qed.
End Swap.

(** ** row-major and column-major positions *)
Lemma rowmajor_from_split acc dims ds : length ds = length dims ->
  rowmajor_from acc dims ds = acc * prodN dims + rowmajor dims ds.
Proof.
  unfold rowmajor. revert acc ds; induction dims as [|x dims IH]; intros acc [|y ds] H; cbn [length] in H;
    try lia; cbn [rowmajor_from prodN]; [lia|].
  rewrite IH by lia. rewrite (IH (0 * x + y)) by lia. nia.
Qed.

Lemma rowmajor_cons x y dims ds : length ds = length dims ->
  rowmajor (x :: dims) (y :: ds) = y * prodN dims + rowmajor dims ds.
Proof. intros H. unfold rowmajor at 1. cbn [rowmajor_from]. rewrite rowmajor_from_split by auto. lia. Qed.

Lemma rowmajor_app d1 d2 x1 x2 : length x1 = length d1 -> length x2 = length d2 ->
  rowmajor (d1 ++ d2) (x1 ++ x2) = rowmajor d1 x1 * prodN d2 + rowmajor d2 x2.
Proof.
  revert x1; induction d1 as [|a d1 IH]; intros [|b x1] H1 H2; cbn [length] in H1; try lia.
  - reflexivity.
  - cbn [app]. rewrite !rowmajor_cons by (rewrite ?app_length; lia).
    rewrite IH by lia. rewrite prodN_app. nia.
Qed.

Lemma rowmajor_lt dims ds : in_range dims ds -> rowmajor dims ds < prodN dims.
Proof.
  intros H; pose proof (in_range_length _ _ H) as L; revert L.
  induction H as [|a b dims ds Hb H IH]; cbn [length]; intros L.
  - cbn; lia.
  - rewrite rowmajor_cons by lia. cbn [prodN]. specialize (IH ltac:(lia)). nia.
Qed.

Lemma colmajor_app d1 d2 x1 x2 : length x1 = length d1 ->
  colmajor (d1 ++ d2) (x1 ++ x2) = colmajor d1 x1 + prodN d1 * colmajor d2 x2.
Proof.
  revert x1; induction d1 as [|a d1 IH]; intros [|b x1] H1; cbn [length] in H1; try lia.
  - cbn. lia.
  - cbn [app colmajor prodN]. rewrite IH by lia. nia.
Qed.

Lemma colmajor_rev dims ds : length ds = length dims ->
  colmajor dims ds = rowmajor (rev dims) (rev ds).
Proof.
  revert ds; induction dims as [|a dims IH]; intros [|b ds] H; cbn [length] in H; try lia.
  - reflexivity.
  - cbn [rev colmajor]. rewrite rowmajor_app by (rewrite ?rev_length; cbn; lia).
    rewrite <- IH by lia. unfold rowmajor. cbn. lia.
Qed.

Lemma prodN_rev l : prodN (rev l) = prodN l.
Proof. induction l; cbn; auto. rewrite prodN_app. cbn. lia. Qed.

Lemma prodN_perm l1 l2 : Permutation l1 l2 -> prodN l1 = prodN l2.
Proof. induction 1; cbn; nia. Qed.

Lemma prodN_pos l : Forall (fun x => 0 < x) l -> 0 < prodN l.
Proof. induction 1; cbn; nia. Qed.

Lemma in_range_nth dims ds : in_range dims ds <->
  length ds = length dims /\ forall i, i < length dims -> nth i ds 0 < nth i dims 0.
Proof.
  split.
  - intros H; split; [apply in_range_length; auto|].
    induction H as [|a b dims ds Hb H IH]; cbn [length]; intros [|i] Hi; cbn [nth]; try lia. apply IH; lia.
  - revert ds; induction dims as [|a dims IH]; intros [|b ds] [L H]; cbn [length] in *; try lia.
    + constructor.
    + constructor; [apply (H 0); lia|]. apply IH. split; [lia|]. intros i Hi. apply (H (S i)). lia.
Qed.

Lemma pick_length axes l : length (pick axes l) = length axes.
Proof. apply map_length. Qed.
Lemma pick_app a1 a2 l : pick (a1 ++ a2) l = pick a1 l ++ pick a2 l.
Proof. apply map_app. Qed.
Lemma pick_seq l : pick (seq 0 (length l)) l = l.
Proof.
  apply list_ext. intros k. unfold pick. destruct (le_lt_dec (length l) k).
  - rewrite (proj2 (nth_error_None _ _)) by (rewrite map_length, seq_length; auto).
    symmetry; apply nth_error_None; auto.
  - rewrite nth_error_map. rewrite (nth_error_nth_some _ _ 0) by (rewrite seq_length; auto).
    rewrite seq_nth by auto. cbn. symmetry; apply nth_error_nth_some; auto.
Qed.

Lemma in_range_pick axes shape idx : Forall (fun i => i < length shape) axes ->
  in_range shape idx -> in_range (pick axes shape) (pick axes idx).
Proof.
  intros HF H. apply in_range_nth in H as [L H]. induction HF as [|i axes Hi HF IH]; cbn.
  - constructor.
  - constructor; auto.
Qed.

Lemma exb_in i D : existsb (Nat.eqb i) D = true <-> In i D.
Proof.
  rewrite existsb_exists. split.
  - intros (x & Hx & E). apply Nat.eqb_eq in E; subst; auto.
  - intros H; exists i; split; auto. apply Nat.eqb_refl.
Qed.

Lemma exb_false i D : existsb (Nat.eqb i) D = false <-> ~ In i D.
Proof. rewrite <- exb_in. destruct (existsb (Nat.eqb i) D); intuition congruence. Qed.

Lemma filter_true {B} (l : list B) : filter (fun _ => true) l = l.
Proof. induction l as [|x l IH]; cbn; [|rewrite IH]; auto. Qed.

(** ** the loop *)
Section Loop.
Context {A : Type} (d : A).
Variables (shape : list nat) (a0 : list A).
Let n := length shape.
Hypothesis Hpos : Forall (fun x => 0 < x) shape.
Hypothesis Hsize : length a0 = prodN shape.

Let rest (D : list nat) : list nat := filter (fun i => negb (existsb (Nat.eqb i) D)) (seq 0 n).
Let cur (D : list nat) : list nat :=
  map (fun i => if existsb (Nat.eqb i) D then 1 else nth i shape 0) (seq 0 n).

Lemma rest_split D i : i < n -> ~ In i D ->
  rest D = filter (fun j => negb (existsb (Nat.eqb j) D)) (seq 0 i) ++
           i :: filter (fun j => negb (existsb (Nat.eqb j) D)) (seq (S i) (n - S i)).
Proof.
  intros Hi Hni. unfold rest. replace n with (i + S (n - S i)) at 1 by lia.
  rewrite seq_app, filter_app. cbn [seq Nat.add filter].
  apply exb_false in Hni. rewrite Hni. cbn [negb]. auto.
Qed.

Lemma rest_cons D i : i < n -> ~ In i D ->
  rest (D ++ [i]) = filter (fun j => negb (existsb (Nat.eqb j) D)) (seq 0 i) ++
           filter (fun j => negb (existsb (Nat.eqb j) D)) (seq (S i) (n - S i)).
Proof.
  intros Hi Hni. unfold rest. replace n with (i + S (n - S i)) at 1 by lia.
  rewrite seq_app, filter_app. cbn [seq Nat.add filter].
  rewrite (proj2 (exb_in i (D ++ [i]))) by (apply in_or_app; right; left; auto). cbn [negb].
  f_equal; apply filter_ext_in; intros j Hj; apply in_seq in Hj; f_equal;
    rewrite existsb_app; cbn [existsb]; destruct (Nat.eqb_spec j i); try lia;
    rewrite ?orb_false_r; auto.
Qed.

Lemma cur_upd D i : i < n -> upd i (fun _ => 1) (cur D) = cur (D ++ [i]).
Proof.
  intros Hi. apply list_ext. intros k. unfold cur.
  destruct (Nat.eq_dec k i) as [->|Hk].
  - rewrite nth_error_upd_eq. rewrite !nth_error_map.
    rewrite (nth_error_nth_some _ _ 0) by (rewrite seq_length; auto). rewrite seq_nth by auto.
    cbn [option_map Nat.add].
    rewrite (proj2 (exb_in i (D ++ [i]))) by (apply in_or_app; right; left; auto). auto.
  - rewrite nth_error_upd_neq by auto. rewrite !nth_error_map.
    destruct (le_lt_dec n k).
    + rewrite (proj2 (nth_error_None (seq 0 n) k)) by (rewrite seq_length; auto). auto.
    + rewrite (nth_error_nth_some _ _ 0) by (rewrite seq_length; auto). rewrite seq_nth by auto.
      cbn [option_map Nat.add]. rewrite existsb_app. cbn [existsb].
      destruct (Nat.eqb_spec k i); [lia|]. rewrite !orb_false_r. auto.
Qed.

Lemma cur_prod D i : i <= n ->
  prodN (firstn i (cur D)) = prodN (pick (filter (fun j => negb (existsb (Nat.eqb j) D)) (seq 0 i)) shape).
Proof.
  intros Hi. unfold cur. rewrite firstn_map.
  replace (firstn i (seq 0 n)) with (seq 0 i).
  - induction (seq 0 i) as [|x l IH]; cbn; auto.
    destruct (existsb (Nat.eqb x) D); cbn; rewrite IH; unfold pick; lia.
  - replace n with (i + (n - i)) by lia. rewrite seq_app, firstn_app, seq_length, Nat.sub_diag, firstn_O, app_nil_r.
    rewrite <- (seq_length i 0) at 2. rewrite firstn_all; auto.
Qed.

Lemma bigloop_spec : forall axes D a,
  Forall (fun i => i < n) (D ++ axes) -> NoDup (D ++ axes) ->
  length a = prodN shape ->
  (forall idx, in_range shape idx ->
     nth_error a (rowmajor (pick (D ++ rest D) shape) (pick (D ++ rest D) idx))
     = nth_error a0 (rowmajor shape idx)) ->
  exists out, bigloop d axes (prodN (pick D shape)) (cur D) a = Ok out /\
    length out = prodN shape /\
    (forall idx, in_range shape idx ->
       nth_error out (rowmajor (pick ((D ++ axes) ++ rest (D ++ axes)) shape)
                               (pick ((D ++ axes) ++ rest (D ++ axes)) idx))
       = nth_error a0 (rowmajor shape idx)).
Proof.
  induction axes as [|i axes IH]; intros D a HF Hnd Hl Hinv; cbn [bigloop].
  - exists a. rewrite app_nil_r. auto.
  - assert (Hi : i < n) by (rewrite Forall_forall in HF; apply HF, in_or_app; right; left; auto).
    assert (Hni : ~ In i D).
    { intros Hc. apply NoDup_remove_2 in Hnd. apply Hnd, in_or_app; auto. }
    set (R1 := filter (fun j => negb (existsb (Nat.eqb j) D)) (seq 0 i)).
    set (R2 := filter (fun j => negb (existsb (Nat.eqb j) D)) (seq (S i) (n - S i))).
    assert (HR : rest D = R1 ++ i :: R2) by (apply rest_split; auto).
    assert (HR' : rest (D ++ [i]) = R1 ++ R2) by (apply rest_cons; auto).
    set (r := nth i shape 0). set (p := prodN (pick D shape)).
    set (q := prodN (pick R1 shape)). set (s := prodN (pick R2 shape)).
    assert (HposN : forall j, j < n -> 0 < nth j shape 0).
    { intros j Hj. rewrite Forall_forall in Hpos. apply Hpos, nth_In; auto. }
    assert (HpF : forall l, Forall (fun j => j < n) l -> 0 < prodN (pick l shape)).
    { intros l HFl. apply prodN_pos. unfold pick. apply Forall_map. eapply Forall_impl; [|exact HFl].
      cbn; auto. }
    assert (FD : Forall (fun j => j < n) D) by (apply Forall_app in HF; tauto).
    assert (FR1 : Forall (fun j => j < n) R1).
    { apply Forall_forall. intros j Hj. apply filter_In in Hj as [Hj _]. apply in_seq in Hj. lia. }
    assert (FR2 : Forall (fun j => j < n) R2).
    { apply Forall_forall. intros j Hj. apply filter_In in Hj as [Hj _]. apply in_seq in Hj. lia. }
    assert (Hr : 0 < r) by (apply HposN; auto).
    assert (Hp : 0 < p) by (apply HpF; auto).
    assert (Hq : 0 < q) by (apply HpF; auto).
    assert (Hs : 0 < s) by (apply HpF; auto).
    assert (Ecur : nth_error (cur D) i = Some r).
    { unfold cur. rewrite nth_error_map.
      rewrite (nth_error_nth_some _ _ 0) by (rewrite seq_length; auto). rewrite seq_nth by auto.
      cbn [option_map Nat.add]. apply exb_false in Hni. rewrite Hni. auto. }
    rewrite Ecur.
    assert (Eq : prodN (firstn (i + 1) (cur D)) = q * r).
    { rewrite cur_prod by lia. rewrite seq_app, filter_app. cbn [seq Nat.add filter].
      apply exb_false in Hni. rewrite Hni. cbn [negb]. rewrite pick_app, prodN_app. fold R1 q.
      cbn. fold r. lia. }
    rewrite Eq, Nat.div_mul by lia.
    (* total size *)
    assert (Etot : prodN shape = p * q * r * s).
    { assert (HP : Permutation (D ++ rest D) (seq 0 n)).
      { apply NoDup_Permutation.
        - clear - Hnd.
          assert (HD : NoDup D) by (induction D; [constructor|]; inversion Hnd; subst;
            constructor; [intros Hc; apply H1, in_or_app; auto|apply IHD; auto]).
          unfold rest. apply NoDup_app_intro; auto.
          + apply NoDup_filter, seq_NoDup.
          + intros x Hx Hc. apply filter_In in Hc as [_ Hc]. apply negb_true_iff, exb_false in Hc. auto.
        - apply seq_NoDup.
        - intros x. rewrite in_app_iff. unfold rest. rewrite filter_In, in_seq.
          rewrite negb_true_iff, exb_false. rewrite Forall_forall in FD. split.
          + intros [Hx|[Hx _]]; [specialize (FD x Hx); lia|lia].
          + intros Hx. destruct (in_dec Nat.eq_dec x D); auto. }
      transitivity (prodN (pick (D ++ rest D) shape)).
      { rewrite <- (pick_seq shape) at 1. symmetry.
        exact (prodN_perm _ _ (Permutation_map (fun i => nth i shape 0) HP)). }
      rewrite HR, !pick_app, !prodN_app. cbn [pick map prodN]. fold p q r s.
      change (map (fun i0 : nat => nth i0 shape 0) R2) with (pick R2 shape). fold s. lia. }
    unfold last_extent. destruct (Nat.eqb_spec (p * q * r) 0) as [E0|_]; [nia|].
    rewrite Hl, Etot. rewrite (Nat.mul_comm (p * q * r) s), Nat.mod_mul by nia. cbn [Nat.eqb].
    rewrite Nat.div_mul by nia. cbn [bind].
    rewrite cur_upd by auto.
    replace (p * r) with (prodN (pick (D ++ [i]) shape)).
    2:{ rewrite pick_app, prodN_app. fold p. cbn. fold r. lia. }
    destruct (IH (D ++ [i]) (swap_axes d p q r s a)) as (out & E & Lo & Ho).
    + rewrite <- app_assoc; auto.
    + rewrite <- app_assoc; auto.
    + rewrite swap_axes_length, Etot. nia.
    + intros idx Hidx. rewrite HR'. rewrite <- (Hinv idx Hidx). rewrite HR.
      pose proof (in_range_pick _ _ _ FD Hidx) as GD.
      pose proof (in_range_pick _ _ _ FR1 Hidx) as GR1.
      pose proof (in_range_pick _ _ _ FR2 Hidx) as GR2.
      assert (Gi : nth i idx 0 < r).
      { apply in_range_nth in Hidx as [_ Hidx]. apply Hidx; auto. }
      rewrite !pick_app. cbn [pick map].
      change (map (fun i0 : nat => nth i0 shape 0) R2) with (pick R2 shape).
      change (map (fun i0 : nat => nth i0 idx 0) R2) with (pick R2 idx).
      fold r.
      repeat (rewrite rowmajor_app by (rewrite ?app_length, ?pick_length; cbn [length]; rewrite ?pick_length; lia)).
      rewrite !rowmajor_cons by (rewrite ?pick_length; cbn [length]; lia).
      change (rowmajor [] []) with 0.
      rewrite !prodN_app. cbn [prodN]. fold q s. rewrite Nat.mul_1_r.
      apply rowmajor_lt in GD, GR1, GR2. fold p in GD. fold q in GR1. fold s in GR2.
      set (x := rowmajor (pick D shape) (pick D idx)) in *.
      set (y := rowmajor (pick R1 shape) (pick R1 idx)) in *.
      set (w := rowmajor (pick R2 shape) (pick R2 idx)) in *.
      set (z := nth i idx 0) in *.
      replace ((x * r + (z * 1 + 0)) * (q * s) + (y * s + w)) with (((x * r + z) * q + y) * s + w) by nia.
      rewrite swap_axes_nth by (auto; lia).
      f_equal. nia.
    + exists out. split; [exact E|]. split; [lia|]. intros idx Hidx. rewrite <- (Ho idx Hidx).
      replace ((D ++ [i]) ++ axes) with (D ++ i :: axes) by (rewrite <- app_assoc; auto). auto.
Qed.

Lemma bigloop_all axes : Permutation axes (seq 0 n) ->
  exists out, bigloop d axes 1 shape a0 = Ok out /\ length out = length a0 /\
    forall idx, in_range shape idx ->
       nth_error out (rowmajor (pick axes shape) (pick axes idx)) = nth_error a0 (rowmajor shape idx).
Proof.
  intros HP.
  assert (Ec : cur [] = shape) by (unfold cur; cbn [existsb]; apply pick_seq).
  assert (Er : rest [] = seq 0 n).
  { unfold rest. cbn [existsb negb]. apply filter_true. }
  destruct (bigloop_spec axes [] a0) as (out & E & L & H).
  - cbn. apply Forall_forall. intros i Hi. apply (Permutation_in _ HP) in Hi. apply in_seq in Hi. lia.
  - cbn. apply (Permutation_NoDup (Permutation_sym HP)), seq_NoDup.
  - auto.
  - intros idx Hidx. rewrite Er. cbn [app].
    assert (Ln : length idx = n) by (apply in_range_length; auto).
    replace (pick (seq 0 n) shape) with shape by (symmetry; apply pick_seq).
    replace (pick (seq 0 n) idx) with idx by (rewrite <- Ln; symmetry; apply pick_seq). auto.
  - exists out. rewrite Ec in E. cbn in E. split; [auto|]. split; [lia|].
    intros idx Hidx. rewrite <- (H idx Hidx). cbn [app].
    assert (Er' : rest axes = []).
    { unfold rest. destruct (filter _ _) as [|x l] eqn:Ef; auto. exfalso.
      assert (Hx : In x (x :: l)) by (left; auto). rewrite <- Ef in Hx.
      apply filter_In in Hx as [Hx Hc]. apply negb_true_iff, exb_false in Hc.
      apply Hc. apply (Permutation_in _ (Permutation_sym HP)); auto. }
    rewrite Er', app_nil_r. auto.
Qed.
End Loop.
