(** Exactness of the spin-shuffle and coupling-path tables; the polygon rule. *)
From Coq Require Import List ZArith Lia Bool Sorting.Sorted.
From Verif Require Import Base BaseFacts SpacesModel SpacesSpec.
Import ListNotations.
Local Open Scope Z_scope.

Definition s2of (smults : list Z) := map (fun s => s - 1) smults.

Lemma even_sum a b : Z.even a = true -> Z.even b = true -> Z.even (a + b) = true.
Proof. intros H1 H2; rewrite Z.even_add, H1, H2; auto. Qed.

Lemma even_mod a : (a mod 2 =? 0) = Z.even a.
Proof.
  rewrite Zmod_even. destruct (Z.even a); reflexivity.
Qed.

Lemma flip_rows_in cols table r :
  In r (flip_rows cols table) <-> exists r0 k, In r0 table /\ In k cols /\ r = sub2 k r0.
Proof.
  unfold flip_rows. rewrite np_unique_in, in_flat_map. split.
  - intros (r0 & H0 & H1). apply in_map_iff in H1 as (k & <- & Hk). eauto.
  - intros (r0 & k & H0 & Hk & ->). exists r0; split; auto. apply in_map_iff; eauto.
Qed.

Lemma row_valid_spec smults row :
  length row = length smults ->
  (row_valid smults row = true <->
   Forall2 (fun S m => m > - S) smults row).
Proof.
  unfold row_valid. revert row; induction smults as [|S l IH]; intros [|m row] HL; cbn in *; try lia.
  - split; auto.
  - rewrite andb_true_iff, IH by lia. split.
    + intros [H1 H2]; constructor; auto. lia.
    + intros H; inversion H; subst; split; auto. lia.
Qed.

(** rows reachable: pointwise below the start with even difference *)
Definition below (s2 row : list Z) : Prop :=
  Forall2 (fun s m => m <= s /\ Z.even (s - m) = true) s2 row.

Lemma below_refl s2 : below s2 s2.
Proof.
  induction s2; constructor; auto. split; [lia|]. replace (a - a) with 0 by lia; auto.
Qed.

Lemma even_plus2 x : Z.even (x + 2) = Z.even x.
Proof. replace 2 with (2*1) by lia. rewrite Z.even_add_mul_2; auto. Qed.

Lemma below_sub2 s2 row k : below s2 row -> below s2 (sub2 k row).
Proof.
  unfold below, sub2. intros H; revert k; induction H as [|s m l l' [H1 H2] H IH]; intros [|k]; cbn; constructor; auto.
  split; [lia|]. replace (s - (m - 2)) with (s - m + 2) by lia. rewrite even_plus2; auto.
Qed.

Lemma sumZ_sub2 k row : (k < length row)%nat -> sumZ (sub2 k row) = sumZ row - 2.
Proof.
  unfold sub2; revert k; induction row; intros [|k] H; cbn in *; try lia.
  rewrite IHrow by lia. lia.
Qed.

Definition add2 (k : nat) (row : list Z) : list Z := upd k (fun x => x + 2) row.
Lemma sub2_add2 k row : sub2 k (add2 k row) = row.
Proof.
  unfold sub2, add2; revert k; induction row; intros [|k]; cbn; auto; f_equal; auto. lia.
Qed.
Lemma sumZ_add2 k row : (k < length row)%nat -> sumZ (add2 k row) = sumZ row + 2.
Proof.
  unfold add2; revert k; induction row; intros [|k] H; cbn in *; try lia.
  rewrite IHrow by lia. lia.
Qed.

(** if the sum is not maximal some column can be lifted *)
Lemma below_lift s2 row :
  below s2 row -> sumZ row < sumZ s2 ->
  exists k, (k < length row)%nat /\ below s2 (add2 k row) /\
            nth k row 0 < nth k s2 0.
Proof.
  unfold below. induction 1 as [|s m l l' [H1 H2] H IH]; cbn; intros HS; [lia|].
  destruct (Z.eq_dec m s) as [->|Hne].
  - destruct IH as (k & Hk & HB & Hlt); [lia|].
    exists (S k); cbn. split; [lia|]. split; [constructor; auto|auto].
  - exists 0%nat; cbn. split; [lia|]. split; [|lia].
    constructor; auto. split.
    + assert (m + 1 <> s). { intros <-. replace (m + 1 - m) with 1 in H2 by lia. discriminate. } lia.
    + replace (s - (m + 2)) with (s - m - 2) by lia. rewrite Z.even_sub, H2; auto.
Qed.

Lemma Forall2_gt_add2 smults row k :
  Forall2 (fun S m => m > - S) smults row -> Forall2 (fun S m => m > - S) smults (add2 k row).
Proof.
  unfold add2. intros H; revert k; induction H; intros [|k]; cbn; constructor; auto. lia.
Qed.

(** Generic search: rounds of flips restricted to columns [cols], filter [ok] that is monotone. *)
Section Search.
Variable cols : list nat.
Variable ok : list Z -> bool.
Variable s2 : list Z.

Fixpoint rounds (n : nat) (table : list (list Z)) : list (list Z) :=
  match n with
  | O => table
  | S n' => rounds n' (filter ok (flip_rows cols table))
  end.

(** Set of rows after n rounds starting from s2. *)
Definition lvl (n : nat) (r : list Z) : Prop :=
  (n = 0%nat /\ r = s2) \/
  (n <> 0%nat /\ ok r = true /\ below s2 r /\ sumZ r = sumZ s2 - 2 * Z.of_nat n /\
   forall k, ~ In k cols -> nth k r 0 = nth k s2 0).

Hypothesis cols_range : forall k, In k cols -> (k < length s2)%nat.
Hypothesis ok_mono : forall k r, In k cols -> ok r = true -> below s2 (add2 k r) -> ok (add2 k r) = true.

Lemma nth_upd_other (k j : nat) (f : Z -> Z) l : k <> j -> nth j (upd k f l) 0 = nth j l 0.
Proof.
  revert k j; induction l; intros [|k] [|j] H; cbn; auto; congruence.
Qed.

Lemma below_length r : below s2 r -> length r = length s2.
Proof. intros H; symmetry; eapply Forall2_length; eauto. Qed.

Lemma lvl_step n table :
  (forall r, In r table <-> lvl n r) ->
  forall r, In r (filter ok (flip_rows cols table)) <-> lvl (S n) r.
Proof.
  intros HT r. rewrite filter_In, flip_rows_in. split.
  - intros [(r0 & k & Hr0 & Hk & ->) Hok].
    right. split; [lia|]. split; [auto|].
    apply HT in Hr0. destruct Hr0 as [[-> ->]|(Hn & Hok0 & HB & HS & HC)].
    + split; [apply below_sub2, below_refl|]. split.
      * rewrite sumZ_sub2; [lia|auto].
      * intros j Hj. unfold sub2; rewrite nth_upd_other; auto. intros ->; auto.
    + split; [apply below_sub2; auto|]. split.
      * rewrite sumZ_sub2; [lia|]. rewrite (below_length _ HB); auto.
      * intros j Hj. unfold sub2; rewrite nth_upd_other; auto. intros ->; auto.
  - intros [[H _]|(_ & Hok & HB & HS & HC)]; [lia|]. split; auto.
    destruct (below_lift s2 r HB) as (k & Hk & HB' & Hlt); [lia|].
    assert (In k cols) as Hin.
    { destruct (in_dec Nat.eq_dec k cols) as [|Hn]; auto. rewrite (HC k Hn) in Hlt. lia. }
    exists (add2 k r), k. split; [|split; [auto|symmetry; apply sub2_add2]].
    apply HT. destruct n.
    + left. split; auto.
      assert (sumZ (add2 k r) = sumZ s2) by (rewrite sumZ_add2; [lia|auto]).
      clear -HB' H. unfold below in HB'.
      revert H. induction HB' as [|s m l l' [H1 H2] HB IH]; cbn; intros H; auto.
      assert (sumZ l' <= sumZ l).
      { clear -HB. induction HB; cbn; [lia|]. destruct H. lia. }
      assert (m = s) as -> by lia. f_equal. apply IH. lia.
    + right. split; [lia|]. split; [apply ok_mono; auto|]. split; auto.
      rewrite sumZ_add2 by auto. split; [lia|].
      intros j Hj. unfold add2; rewrite nth_upd_other; auto. intros ->; auto.
Qed.

Lemma rounds_lvl m n table :
  (forall r, In r table <-> lvl n r) ->
  forall r, In r (rounds m table) <-> lvl (m + n) r.
Proof.
  revert n table; induction m; cbn; intros n table HT r; auto.
  rewrite (IHm (S n)).
  - replace (m + S n)%nat with (S (m + n)) by lia. tauto.
  - apply lvl_step; auto.
Qed.

Lemma rounds_start m r : In r (rounds m [s2]) <-> lvl m r.
Proof.
  rewrite (rounds_lvl m 0).
  - replace (m + 0)%nat with m by lia; tauto.
  - intros r'; cbn. unfold lvl. split; intros H.
    + destruct H as [<-|[]]; auto.
    + destruct H as [[_ ->]|[H _]]; [auto|lia].
Qed.

Lemma rounds_sorted m table :
  StronglySorted lexlt table -> StronglySorted lexlt (rounds m table).
Proof.
  revert table; induction m; cbn; intros table H; auto.
  apply IHm. apply StronglySorted_filter, np_unique_sorted.
Qed.
End Search.

Lemma spin_rounds_rounds n smults table :
  spin_rounds n smults table = rounds (seq 0 (length smults)) (row_valid smults) n table.
Proof. revert table; induction n; cbn; auto. Qed.

Lemma s2of_length smults : length (s2of smults) = length smults.
Proof. apply map_length. Qed.

Lemma microstate_below smults t M :
  microstate smults M t <->
  below (s2of smults) t /\ Forall2 (fun S m => m > - S) smults t /\ sumZ t = M.
Proof.
  unfold microstate, below, s2of. split.
  - intros [H <-]. split; [|split; auto].
    + induction H as [|S m l l' [H1 H2] H IH]; cbn; constructor; auto. split; [lia|auto].
    + induction H as [|S m l l' [H1 H2] H IH]; cbn; constructor; auto. lia.
  - intros (H1 & H2 & <-). split; auto.
    revert H1. induction H2 as [|S m l l' H2 H IH]; cbn; intros H1; inversion H1; subst; constructor; auto.
    destruct H5 as [H5 H6]. split; auto. lia.
Qed.

Theorem spin_table_exact smults spins :
  Forall (fun S => 1 <= S) smults ->
  sumZ spins <= sumZ (s2of smults) ->
  Z.even (sumZ (s2of smults) - sumZ spins) = true ->
  exists table, make_spin_shuffle_table smults spins = Ok table /\
    StronglySorted lexlt table /\
    (forall t, In t table <-> microstate smults (sumZ spins) t).
Proof.
  intros Hpos Hle Hev. unfold make_spin_shuffle_table. fold (s2of smults).
  rewrite even_mod, Hev. cbn [py_assert].
  eexists; split; [reflexivity|]. rewrite spin_rounds_rounds.
  split; [apply rounds_sorted; repeat constructor|].
  intros t. rewrite rounds_start.
  - set (n := Z.to_nat ((sumZ (s2of smults) - sumZ spins) / 2)).
    assert (Hn : sumZ (s2of smults) - 2 * Z.of_nat n = sumZ spins).
    { apply Z.even_spec in Hev as [q Hq]. unfold n. rewrite Hq.
      replace (2 * q / 2) with q by (rewrite Z.mul_comm, Z.div_mul; lia).
      rewrite Z2Nat.id by lia. lia. }
    rewrite microstate_below. unfold lvl. split.
    + intros [[E ->]|(Hn0 & Hok & HB & HS & HC)].
      * split; [apply below_refl|]. split; [|lia].
        unfold s2of. clear -Hpos. induction Hpos; cbn; constructor; auto. lia.
      * split; auto. split; [|lia]. apply row_valid_spec; auto.
        apply Forall2_length in HB. rewrite s2of_length in HB. auto.
    + intros (HB & HV & HS).
      destruct n.
      * left; split; auto.
        assert (E : sumZ t = sumZ (s2of smults)) by lia. clear -HB E.
        unfold below in HB. revert E. induction HB as [|s m l l' [H1 H2] HB IH]; cbn; intros H; auto.
        assert (sumZ l' <= sumZ l).
        { clear -HB. induction HB; cbn; [lia|]. destruct H. lia. }
        assert (m = s) as -> by lia. f_equal. apply IH. lia.
      * right. split; [lia|]. split.
        { apply row_valid_spec; auto. apply Forall2_length in HB. rewrite s2of_length in HB. auto. }
        split; auto. split; [lia|].
        intros k Hk. rewrite in_seq in Hk. rewrite !nth_overflow; auto.
        -- rewrite s2of_length; lia.
        -- apply Forall2_length in HB. rewrite s2of_length in HB. lia.
  - intros k Hk. apply in_seq in Hk. rewrite s2of_length. lia.
  - intros k r Hk Hok HB. 
    assert (length r = length smults).
    { apply Forall2_length in HB. unfold add2 in HB. rewrite upd_length, s2of_length in HB. auto. }
    rewrite row_valid_spec in * by (unfold add2; rewrite ?upd_length; auto).
    apply Forall2_gt_add2; auto.
Qed.
