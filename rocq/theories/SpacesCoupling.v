(** The coupling-path table and the polygon rule for total spin. *)
From Coq Require Import List ZArith Lia Bool Sorting.Sorted.
From Verif Require Import Base BaseFacts SpacesModel SpacesSpec SpacesTables.
Import ListNotations.
Local Open Scope Z_scope.

Lemma even_add_l a b : Z.even a = true -> Z.even (a + b) = Z.even b.
Proof. intros H; rewrite Z.even_add, H; destruct (Z.even b); auto. Qed.

Lemma even_ex a : Z.even a = true <-> exists q, a = 2 * q.
Proof. rewrite Z.even_spec. reflexivity. Qed.

(** polygon rule, forward *)
Lemma coupling_range l inc acc S :
  0 <= acc -> Forall (fun x => 0 <= x) l -> coupling acc l inc S ->
  0 <= S /\ Z.even (acc + sumZ l - S) = true /\
  2 * Z.max acc (max_list l) - (acc + sumZ l) <= S <= acc + sumZ l.
Proof.
  intros Ha Hl; revert inc acc Ha; induction Hl as [|s l Hs Hl IH]; intros [|d inc] acc Ha;
    cbn [coupling sumZ max_list]; try tauto.
  - intros <-. replace (acc + 0 - acc) with 0 by lia. split; [lia|]. split; [auto|]. lia.
  - intros [[Ht1 Ht2] HC]. apply IH in HC as (H0 & HE & HR); [|lia].
    split; auto. split.
    + replace (acc + (s + sumZ l) - S) with ((acc + s - (acc + d)) + (acc + d + sumZ l - S)) by lia.
      apply even_sum; auto.
    + lia.
Qed.

(** polygon rule, backward *)
Lemma coupling_exists l acc S :
  0 <= acc -> Forall (fun x => 0 <= x) l ->
  0 <= S -> Z.even (acc + sumZ l - S) = true ->
  2 * Z.max acc (max_list l) - (acc + sumZ l) <= S <= acc + sumZ l ->
  exists inc, coupling acc l inc S.
Proof.
  intros Ha Hl; revert acc Ha; induction Hl as [|s l Hs Hl IH]; intros acc Ha HS HE HR;
    cbn [coupling sumZ max_list] in *.
  - exists []. cbn. lia.
  - pose proof (max_list_le_sum l Hl) as Hm. pose proof (max_list_nonneg l) as Hm0.
    pose proof (sumZ_nonneg l Hl) as Hs0.
    set (c := Z.max (Z.max (Z.abs (acc - s)) (S - sumZ l)) (2 * max_list l - sumZ l - S)).
    apply even_ex in HE as [q Hq].
    assert (Hc : exists q', acc + s - c = 2 * q').
    { unfold c.
      destruct (Z.max_spec (Z.abs (acc - s)) (S - sumZ l)) as [[_ ->]|[_ ->]].
      - destruct (Z.max_spec (S - sumZ l) (2 * max_list l - sumZ l - S)) as [[_ ->]|[_ ->]].
        + exists (q + S - max_list l). lia.
        + exists q. lia.
      - destruct (Z.max_spec (Z.abs (acc - s)) (2 * max_list l - sumZ l - S)) as [[_ ->]|[_ ->]].
        + exists (q + S - max_list l). lia.
        + destruct (Z.abs_spec (acc - s)) as [[_ ->]|[_ ->]]; [exists s|exists acc]; lia. }
    destruct Hc as [q' Hq'].
    destruct (IH c) as [inc Hinc].
    + unfold c; lia.
    + lia.
    + apply even_ex. exists (q - q'). lia.
    + unfold c in *. lia.
    + exists ((c - acc) :: inc). cbn. replace (acc + (c - acc)) with c by lia. split; auto.
      split; [unfold c; lia|]. apply even_ex. exists q'. lia.
Qed.

Theorem polygon_rule s2 S :
  Forall (fun x => 0 <= x) s2 ->
  (can_couple s2 S <->
   0 <= S /\ Z.even (sumZ s2 - S) = true /\ 2 * max_list s2 - sumZ s2 <= S <= sumZ s2).
Proof.
  intros Hl. pose proof (max_list_nonneg s2). unfold can_couple. split.
  - intros [inc H0]. apply coupling_range in H0; auto; [|lia].
    replace (0 + sumZ s2 - S) with (sumZ s2 - S) in H0 by lia. intuition lia.
  - intros (H1 & H2 & H3). apply coupling_exists; auto; try lia.
Qed.

(** stepwise characterisation of coupling paths *)
Fixpoint tri_from (acc : Z) (s2 row : list Z) : bool :=
  match s2, row with
  | [], [] => true
  | s :: s2', d :: row' => (acc + d >=? s - acc) && tri_from (acc + d) s2' row'
  | _, _ => false
  end.

Lemma coupling_steps l : forall row acc S,
  0 <= acc -> Forall (fun x => 0 <= x) l ->
  (coupling acc l row S <->
   below l row /\ Forall2 (fun s m => m > - (s + 1)) l row /\
   Forall (fun x => 0 <= x) (cumsum_from acc row) /\
   tri_from acc l row = true /\ acc + sumZ row = S).
Proof.
  unfold below.
  induction l as [|s l IH]; intros [|d row] acc S Ha Hl; cbn.
  - split; [intros ->; repeat split; auto; lia | intros (_&_&_&_&<-); lia].
  - split; [tauto|]. intros (H & _); inversion H.
  - split; [tauto|]. intros (H & _); inversion H.
  - inversion Hl as [|? ? Hs Hl']; subst. split.
    + intros [[HT1 HT2] HC]. apply IH in HC as (H1 & H2 & H3 & H4 & H5); [|lia|auto].
      replace (acc + s - (acc + d)) with (s - d) in HT2 by lia.
      split; [constructor; auto; split; [lia|auto]|].
      split; [constructor; auto; lia|].
      split; [constructor; auto; lia|].
      split; [|lia]. rewrite H4, andb_true_r. lia.
    + intros (H1 & H2 & H3 & H4 & H5).
      inversion H1 as [|? ? ? ? [Hd1 Hd2] H1']; subst.
      inversion H2; inversion H3; subst.
      apply andb_true_iff in H4 as [H4 H4'].
      split.
      * split; [lia|]. replace (acc + s - (acc + d)) with (s - d) by lia. auto.
      * apply IH; auto. repeat split; auto. lia.
Qed.

Lemma last_cumsum_from acc row : row <> [] -> last (cumsum_from acc row) 0 = acc + sumZ row.
Proof.
  revert acc; induction row as [|x row IH]; [congruence|]. intros acc _.
  destruct row as [|y row]; [cbn; lia|].
  replace (last (cumsum_from acc (x :: y :: row)) 0)
    with (last (cumsum_from (acc + x) (y :: row)) 0) by reflexivity.
  rewrite IH by congruence. cbn. lia.
Qed.
Lemma last_cumsum row : last (cumsum row) 0 = sumZ row.
Proof. destruct row; [reflexivity|]. unfold cumsum. rewrite last_cumsum_from by congruence. lia. Qed.

Lemma forallb_seq_shift f n :
  forallb f (seq 1 n) = forallb (fun i => f (S i)) (seq 0 n).
Proof.
  rewrite <- seq_shift. generalize (seq 0 n). induction l; cbn; auto. rewrite IHl; auto.
Qed.

Lemma tri_ok_from s0 smults row acc :
  length row = length smults ->
  forallb (fun i => nth (S i) (acc :: cumsum_from acc row) 0
                    >=? (nth (S i) (s0 :: smults) 0 - 1) - nth i (acc :: cumsum_from acc row) 0)
          (seq 0 (length smults)) = tri_from acc (s2of smults) row.
Proof.
  intros HL. revert s0 row acc HL.
  induction smults as [|s smults IH]; intros s0 [|d row] acc HL; try (cbn in HL; lia); auto.
  cbn [length seq forallb cumsum_from s2of map tri_from].
  rewrite forallb_seq_shift. f_equal.
  rewrite <- (IH s); [|cbn in HL; lia]. reflexivity.
Qed.

Lemma tri_ok_spec s0 smults r0 row :
  length row = length smults ->
  tri_ok (s0 :: smults) (r0 :: row) = tri_from r0 (s2of smults) row.
Proof.
  intros HL. unfold tri_ok, cumsum.
  replace (length (s0 :: smults) - 1)%nat with (length smults) by (cbn; lia).
  cbn [cumsum_from]. replace (0 + r0) with r0 by lia.
  rewrite <- (tri_ok_from s0 smults row r0 HL). reflexivity.
Qed.

Definition smult_okrow (smults row : list Z) : bool :=
  forallb (fun x => x >=? 0) (cumsum row) && row_valid smults row.

Lemma cumsum_mono row a b : a <= b ->
  forallb (fun x => x >=? 0) (cumsum_from a row) = true ->
  forallb (fun x => x >=? 0) (cumsum_from b row) = true.
Proof.
  revert a b; induction row as [|x row IH]; cbn; auto. intros a b Hle H.
  apply andb_true_iff in H as [H1 H2].
  apply andb_true_iff; split; [lia|]. apply (IH (a + x)); auto; lia.
Qed.

Lemma cumsum_add2 k row acc :
  forallb (fun x => x >=? 0) (cumsum_from acc row) = true ->
  forallb (fun x => x >=? 0) (cumsum_from acc (add2 k row)) = true.
Proof.
  unfold add2. revert k acc; induction row as [|x row IH]; intros [|k] acc; cbn; auto;
    intros H; apply andb_true_iff in H as [H1 H2]; apply andb_true_iff; split; try lia.
  - apply (cumsum_mono row (acc + x)); auto. lia.
  - apply IH; auto.
Qed.

Lemma forallb_Forall (p : Z -> bool) (P : Z -> Prop) l :
  (forall x, p x = true <-> P x) -> (forallb p l = true <-> Forall P l).
Proof.
  intros H. rewrite forallb_forall, Forall_forall. split; intros HH x Hx; apply H; auto.
Qed.

Lemma match_ne {A B} (l : list A) (x y : B) :
  l <> [] -> match l with [] => x | _ :: _ => y end = y.
Proof. destruct l; congruence. Qed.

Section Table.
Variable smults : list Z.
Hypothesis Hpos : Forall (fun S => 1 <= S) smults.
Hypothesis Hne : smults <> [].
Let s2 := s2of smults.
Let cols := seq 1 (length smults - 1).
Let okr := smult_okrow smults.

Lemma s2_nonneg : Forall (fun x => 0 <= x) s2.
Proof. unfold s2, s2of. clear Hne. induction Hpos; cbn; constructor; auto. lia. Qed.

Lemma cols_ok k : In k cols -> (k < length s2)%nat.
Proof. unfold cols, s2. rewrite in_seq, s2of_length. lia. Qed.

Lemma okr_mono k r : In k cols -> okr r = true -> below s2 (add2 k r) -> okr (add2 k r) = true.
Proof.
  unfold okr, smult_okrow. intros Hk H HB. apply andb_true_iff in H as [H1 H2].
  assert (length r = length smults).
  { apply Forall2_length in HB. unfold add2, s2 in HB. rewrite upd_length, s2of_length in HB. auto. }
  apply andb_true_iff; split; [apply cumsum_add2; auto|].
  rewrite row_valid_spec in * by (unfold add2; rewrite ?upd_length; auto).
  apply Forall2_gt_add2; auto.
Qed.

Lemma smult_rounds_ok tgt : forall m n table,
  (forall r, In r table <-> lvl cols okr s2 n r) ->
  sumZ s2 - 2 * Z.of_nat (m + n) = tgt ->
  smult_rounds m smults tgt table = Ok (rounds cols okr m table).
Proof.
  induction m; intros n table HT Htgt; cbn [smult_rounds rounds]; auto.
  set (t2 := filter _ (flip_rows (seq 1 (length smults - 1)) table)).
  assert (Ht2 : forall r, In r t2 <-> lvl cols okr s2 (S n) r).
  { apply lvl_step; auto. apply cols_ok. apply okr_mono. }
  assert (Hass : forallb (fun row => last (cumsum row) 0 >=? tgt) t2 = true).
  { apply forallb_forall. intros r Hr. apply Ht2 in Hr. rewrite last_cumsum.
    destruct Hr as [[H _]|(_ & _ & _ & HS & _)]; [lia|]. lia. }
  rewrite Hass. cbn [py_assert]. apply (IHm (S n)); auto. lia.
Qed.

Lemma start_lvl0 r : In r [s2] <-> lvl cols okr s2 0 r.
Proof.
  cbn. unfold lvl. split; intros H.
  - destruct H as [<-|[]]; auto.
  - destruct H as [[_ ->]|[H _]]; [auto|lia].
Qed.

Lemma s2_okr : okr s2 = true.
Proof.
  unfold okr, smult_okrow. apply andb_true_iff; split.
  - unfold cumsum. pose proof s2_nonneg as H.
    assert (HH : forall acc, 0 <= acc -> forallb (fun x => x >=? 0) (cumsum_from acc s2) = true);
      [|apply HH; lia].
    induction H as [|x l Hx Hl IH]; intros acc Hacc; cbn; auto.
    apply andb_true_iff; split; [lia|]. apply IH. lia.
  - apply row_valid_spec; [apply s2of_length|]. unfold s2, s2of. clear Hne.
    induction Hpos; cbn; constructor; auto. lia.
Qed.

Lemma lvl_coupling n r :
  (lvl cols okr s2 n r /\ tri_ok smults r = true) <->
  coupling 0 s2 r (sumZ s2 - 2 * Z.of_nat n).
Proof.
  rewrite coupling_steps; [|lia|apply s2_nonneg].
  assert (HL : forall r, below s2 r -> length r = length smults).
  { intros r' H. apply Forall2_length in H. unfold s2 in H. rewrite s2of_length in H. auto. }
  assert (HE : forall r, lvl cols okr s2 n r <->
     (okr r = true /\ below s2 r /\ sumZ r = sumZ s2 - 2 * Z.of_nat n /\ nth 0 r 0 = nth 0 s2 0)).
  { intros r'. unfold lvl. split.
    - intros [[-> ->]|(H & H1 & H2 & H3 & H4)].
      + repeat split; auto using below_refl. apply s2_okr. lia.
      + repeat split; auto. apply H4. unfold cols. rewrite in_seq. lia.
    - intros (H1 & H2 & H3 & H4). destruct n.
      + left; split; auto.
        assert (E : sumZ r' = sumZ s2) by lia. clear -H2 E.
        unfold below in H2. revert E. induction H2 as [|s m l l' [H1 H2] HB IH]; cbn; intros H; auto.
        assert (sumZ l' <= sumZ l).
        { clear -HB. induction HB; cbn; [lia|]. destruct H. lia. }
        assert (m = s) as -> by lia. f_equal. apply IH. lia.
      + right. repeat split; auto; try lia. intros k Hk.
        unfold cols in Hk. rewrite in_seq in Hk. destruct k; auto.
        rewrite !nth_overflow; auto.
        * unfold s2; rewrite s2of_length. lia.
        * rewrite (HL _ H2). lia. }
  rewrite HE. clear HE.
  assert (HV : forall r, below s2 r ->
     (okr r = true <-> Forall2 (fun s m => m > - (s + 1)) s2 r /\ Forall (fun x => 0 <= x) (cumsum_from 0 r))).
  { intros r' HB. unfold okr, smult_okrow. rewrite andb_true_iff, row_valid_spec by auto.
    rewrite (forallb_Forall _ (fun x => 0 <= x)) by (intros; lia).
    unfold s2, s2of in *. split; intros [H1 H2]; split; auto; clear -HB H1 H2.
    - clear H1. induction H2; cbn in *; inversion HB; subst; constructor; auto. lia.
    - clear H2. revert HB H1. revert r'. induction smults as [|a l IH]; cbn; intros r' HB H1;
        inversion H1; subst; inversion HB; subst; constructor; auto. lia. }
  split.
  - intros ((H1 & H2 & H3 & H4) & H5). apply HV in H1 as [H1 H1']; auto.
    repeat split; auto.
    pose proof (HL _ H2) as HLr. unfold s2 in *.
    destruct smults as [|s0 sm]; [congruence|]. destruct r as [|r0 r]; [cbn in HLr; lia|].
    cbn in H4. rewrite tri_ok_spec in H5 by (cbn in HLr; lia).
    cbn [s2of map tri_from]. fold (s2of sm). replace (0 + r0) with r0 by lia. rewrite H5. lia.
  - intros (H1 & H2 & H3 & H4 & H5).
    pose proof (HL _ H1) as HLr.
    assert (okr r = true) by (apply HV; auto).
    unfold s2 in *.
    destruct smults as [|s0 sm] eqn:Esm; [congruence|]. destruct r as [|r0 r]; [cbn in HLr; lia|].
    cbn [s2of map tri_from] in H4. fold (s2of sm) in H4.
    apply andb_true_iff in H4 as [H4 H4']. replace (0 + r0) with r0 in H4' by lia.
    inversion H1; subst.
    split.
    + repeat split; auto. cbn. lia.
    + rewrite tri_ok_spec; auto.
Qed.

Theorem smult_table_exact smult_lsf :
  Z.even (sumZ s2 - (smult_lsf - 1)) = true ->
  exists table, make_smult_shuffle_table smults smult_lsf = Ok table /\
    StronglySorted lexlt table /\
    (forall t, In t table <-> coupling 0 s2 t (smult_lsf - 1)).
Proof.
  intros Hev. unfold make_smult_shuffle_table. fold (s2of smults). fold s2.
  rewrite even_mod, Hev. cbn [py_assert].
  rewrite match_ne by auto.
  destruct ((smult_lsf <? 2 * (max_list s2 + 1) - (sumZ s2 + 1)) || (smult_lsf >? sumZ s2 + 1)) eqn:E.
  - exists []. split; auto. split; [constructor|]. intros t; split; [intros []|].
    intros HC. exfalso. apply coupling_range in HC; [|lia|apply s2_nonneg].
    pose proof (max_list_nonneg s2). lia.
  - set (n := Z.to_nat ((sumZ s2 - (smult_lsf - 1)) / 2)).
    assert (Hn : sumZ s2 - 2 * Z.of_nat n = smult_lsf - 1).
    { apply Z.even_spec in Hev as [q Hq]. unfold n. rewrite Hq.
      replace (2 * q / 2) with q by (rewrite Z.mul_comm, Z.div_mul; lia).
      rewrite Z2Nat.id by lia. lia. }
    rewrite (smult_rounds_ok (smult_lsf - 1) n 0); [|apply start_lvl0|].
    2:{ replace (n + 0)%nat with n by lia. auto. }
    cbn [bind].
    assert (HR : forall r, In r (rounds cols okr n [s2]) <-> lvl cols okr s2 n r).
    { intros r. apply rounds_start. apply cols_ok. apply okr_mono. }
    assert (Hass : forallb (fun row => last (cumsum row) 0 =? smult_lsf - 1)
                    (rounds cols okr n [s2]) = true).
    { apply forallb_forall. intros r Hr. apply HR in Hr. rewrite last_cumsum.
      destruct Hr as [[H ->]|(_ & _ & _ & HS & _)]; lia. }
    rewrite Hass. cbn [py_assert]. eexists; split; [reflexivity|].
    split.
    + apply StronglySorted_filter, rounds_sorted. repeat constructor.
    + intros t. rewrite filter_In, HR, lvl_coupling, Hn. tauto.
Qed.
End Table.
