(** Every schedule of the listing loop gives the same list. *)
From Coq Require Import List ZArith Lia Bool Arith Sorting.Permutation Sorting.Sorted.
From Verif Require Import Base BaseFacts SCModel SCSpec.
Import ListNotations.
Local Open Scope nat_scope.

Lemma flat_pairs_length l : length (flat_pairs l) = length l * 2.
Proof. unfold flat_pairs. induction l; cbn; auto. Qed.
Lemma flat_pairs_app a b : flat_pairs (a ++ b) = flat_pairs a ++ flat_pairs b.
Proof. unfold flat_pairs. apply flat_map_app. Qed.
Lemma rows_of_flat l : rows_of (flat_pairs l) = map as_row l.
Proof. unfold flat_pairs. induction l as [|p l IH]; cbn; auto. rewrite IH. auto. Qed.

Lemma setth_split t s0 s ths : nth_error ths t = Some s0 ->
  exists l1 l2, ths = l1 ++ s0 :: l2 /\ length l1 = t /\ setth t s ths = l1 ++ s :: l2.
Proof.
  intros H. apply nth_error_split in H as (l1 & l2 & -> & <-). exists l1, l2. repeat split.
  unfold setth. induction l1; cbn; auto. rewrite IHl1. auto.
Qed.

Lemma firstn_upd_after {A} (f : A -> A) (e : list A) : forall n k, n <= k -> firstn n (upd k f e) = firstn n e.
Proof.
  induction e as [|x e IH]; intros n k H; destruct k; auto.
  - destruct n; [auto|lia].
  - destruct n; auto. cbn. rewrite IH by lia. auto.
Qed.
Lemma firstn_skipn_upd {A} (v : A) (e : list A) : forall ie i, ie + i < length e ->
  firstn (S i) (skipn ie (upd (ie + i) (fun _ => v) e)) = firstn i (skipn ie e) ++ [v].
Proof.
  induction e as [|x e IH]; intros ie i H; [cbn in H; lia|]. destruct ie as [|ie].
  - cbn [Nat.add skipn]. cbn [Nat.add] in H. clear IH. revert i H. generalize (x :: e). clear.
    induction l as [|y l IH]; intros i H; [cbn in H; lia|]. destruct i as [|i]; [reflexivity|].
    cbn [upd]. change (firstn (S (S i)) (y :: upd i (fun _ => v) l)) with (y :: firstn (S i) (upd i (fun _ => v) l)).
    rewrite IH by (cbn in H; lia). reflexivity.
  - cbn [Nat.add upd skipn]. apply IH. cbn in H. lia.
Qed.
Lemma firstn_S_nth {A} (l : list A) : forall i v, nth_error l i = Some v -> firstn (S i) l = firstn i l ++ [v].
Proof.
  induction l as [|x l IH]; intros [|i] v H; cbn in H; try discriminate.
  - injection H as ->. auto.
  - cbn [app firstn]. rewrite <- (IH i v H). auto.
Qed.

Section Run.
Variables (nbra nket nexc : nat) (coupled : nat -> nat -> bool).
Let pairof iel := (iel / nket, iel mod nket).
Let cpl iel := coupled (iel / nket) (iel mod nket).
Definition keeps (c : list nat) : list (nat * nat) := map pairof (filter cpl c).
Definition contrib (s : tstate) : list (nat * nat) :=
  match s with Loop todo mine => mine ++ keeps todo | Crit mine _ => mine | Done => [] end.

Variable all : list (nat * nat).
Hypothesis Hall : length all = nexc.

Definition Inv (m : mach) : Prop := exists written,
  iexc m = length written * 2 /\ length (exc m) = nexc * 2 /\
  firstn (iexc m) (exc m) = flat_pairs written /\
  Permutation (written ++ flat_map contrib (threads m)) all /\
  (forall t mine i, nth_error (threads m) t = Some (Crit mine i) ->
     lock m = Some t /\ i <= length mine * 2 /\
     firstn i (skipn (iexc m) (exc m)) = firstn i (flat_pairs mine)) /\
  (forall t, lock m = Some t -> exists mine i, nth_error (threads m) t = Some (Crit mine i)) /\
  fault m = false.

Lemma nth_error_setth t s ths u : nth_error ths t <> None ->
  nth_error (setth t s ths) u = if u =? t then Some s else nth_error ths u.
Proof.
  intros H. unfold setth. destruct (Nat.eqb_spec u t) as [->|Hne].
  - destruct (nth_error ths t) eqn:E; [|congruence]. rewrite nth_error_upd_eq, E. auto.
  - rewrite nth_error_upd_neq; auto.
Qed.

Lemma Inv_step m m' : Inv m -> step nket nexc coupled m m' -> Inv m'.
Proof.
  intros (w & Hie & Hle & Hw & Hp & Hc & Hk & Hf) Hst.
  destruct Hst as [t iel todo mine ths e ie lk Ht Hcp|t iel todo mine ths e ie lk Ht Hcp
    |t mine ths e ie Ht|t mine i v ths e ie lk Ht Hv|t mine i ths e ie lk Ht Hi];
    cbn [threads exc iexc lock fault] in *;
    assert (Hsome : nth_error ths t <> None) by congruence;
    match goal with |- Inv (mkMach (setth _ ?s _) _ _ _ _) => destruct (setth_split t _ s ths Ht) as (l1 & l2 & E1 & _ & E2) end.
  - exists w. cbn [threads exc iexc lock fault]. repeat split; auto.
    + rewrite E2. rewrite E1 in Hp. rewrite !flat_map_app in *. cbn [flat_map contrib] in *.
      unfold keeps in *. cbn [filter] in Hp. unfold cpl in Hp at 1. rewrite Hcp in Hp. auto.
    + rewrite nth_error_setth in H by auto. destruct (Nat.eqb_spec t0 t); [discriminate|]. apply (Hc t0 _ _ H).
    + rewrite nth_error_setth in H by auto. destruct (Nat.eqb_spec t0 t); [discriminate|]. apply (Hc t0 _ _ H).
    + rewrite nth_error_setth in H by auto. destruct (Nat.eqb_spec t0 t); [discriminate|]. apply (Hc t0 _ _ H).
    + intros u Hu. destruct (Hk u Hu) as (mi & j & Hu'). exists mi, j. rewrite nth_error_setth by auto.
      destruct (Nat.eqb_spec u t); [subst; congruence|auto].
  - assert (Hlen : length mine < nexc).
    { rewrite <- Hall, <- (Permutation_length Hp), E1, flat_map_app, !app_length. cbn [flat_map contrib].
      unfold keeps. cbn [filter]. unfold cpl at 1. rewrite Hcp. rewrite !app_length. cbn. lia. }
    exists w. cbn [threads exc iexc lock fault]. repeat split; auto.
    + rewrite E2. rewrite E1 in Hp. rewrite !flat_map_app in *. cbn [flat_map contrib] in *.
      unfold keeps in *. cbn [filter] in Hp. unfold cpl in Hp at 1. rewrite Hcp in Hp. cbn [map] in Hp.
      rewrite <- (app_assoc mine). exact Hp.
    + rewrite nth_error_setth in H by auto. destruct (Nat.eqb_spec t0 t); [discriminate|]. apply (Hc t0 _ _ H).
    + rewrite nth_error_setth in H by auto. destruct (Nat.eqb_spec t0 t); [discriminate|]. apply (Hc t0 _ _ H).
    + rewrite nth_error_setth in H by auto. destruct (Nat.eqb_spec t0 t); [discriminate|]. apply (Hc t0 _ _ H).
    + intros u Hu. destruct (Hk u Hu) as (mi & j & Hu'). exists mi, j. rewrite nth_error_setth by auto.
      destruct (Nat.eqb_spec u t); [subst; congruence|auto].
    + apply Nat.ltb_lt in Hlen. rewrite Hlen. auto.
  - exists w. cbn [threads exc iexc lock fault]. repeat split; auto.
    + rewrite E2. rewrite E1 in Hp. rewrite !flat_map_app in *. cbn [flat_map contrib] in *.
      unfold keeps in *. cbn [filter map] in Hp. rewrite app_nil_r in Hp. auto.
    + rewrite nth_error_setth in H by auto. destruct (Nat.eqb_spec t0 t); [subst; auto|].
      destruct (Hc t0 _ _ H); discriminate.
    + rewrite nth_error_setth in H by auto. destruct (Nat.eqb_spec t0 t).
      * injection H as <- <-. lia.
      * destruct (Hc t0 _ _ H); discriminate.
    + rewrite nth_error_setth in H by auto. destruct (Nat.eqb_spec t0 t).
      * injection H as <- <-. auto.
      * destruct (Hc t0 _ _ H); discriminate.
    + intros u Hu. injection Hu as <-. exists mine, 0. rewrite nth_error_setth, Nat.eqb_refl by auto. auto.
  - assert (Hi : i < length mine * 2) by (apply nth_error_Some_lt in Hv; rewrite flat_pairs_length in Hv; auto).
    destruct (Hc t _ _ Ht) as (Hl1 & Hl2 & Hl3).
    assert (Hbd : ie + i < length e).
    { rewrite Hle, Hie, <- Hall, <- (Permutation_length Hp), E1, flat_map_app, !app_length.
      cbn [flat_map contrib]. rewrite !app_length. lia. }
    exists w. cbn [threads exc iexc lock fault]. repeat split; auto.
    + rewrite upd_length; auto.
    + rewrite firstn_upd_after by lia. auto.
    + rewrite E2. rewrite E1 in Hp. rewrite !flat_map_app in *. cbn [flat_map contrib] in *. auto.
    + rewrite nth_error_setth in H by auto. destruct (Nat.eqb_spec t0 t); [subst; auto|].
      destruct (Hc t0 _ _ H); congruence.
    + rewrite nth_error_setth in H by auto. destruct (Nat.eqb_spec t0 t).
      * injection H as <- <-. lia.
      * destruct (Hc t0 _ _ H); lia.
    + rewrite nth_error_setth in H by auto. destruct (Nat.eqb_spec t0 t).
      * injection H as <- <-. rewrite firstn_skipn_upd by auto. rewrite (firstn_S_nth _ _ _ Hv), Hl3. auto.
      * destruct (Hc t0 _ _ H) as [Hx _]; congruence.
    + intros u Hu. rewrite Hl1 in Hu. injection Hu as <-. exists mine, (S i).
      rewrite nth_error_setth, Nat.eqb_refl by auto. auto.
    + apply Nat.ltb_lt in Hbd. rewrite Hbd. auto.
  - destruct (Hc t _ _ Ht) as (Hl1 & Hl2 & Hl3).
    exists (w ++ mine). cbn [threads exc iexc lock fault]. repeat split; auto.
    + rewrite app_length. lia.
    + rewrite flat_pairs_app, <- Hw.
      rewrite <- (firstn_all (flat_pairs mine)), flat_pairs_length, <- Hi, <- Hl3.
      clear. revert ie i. induction e as [|x e IH]; intros ie i.
      * rewrite skipn_nil, !firstn_nil. auto.
      * destruct ie; [auto|]. cbn. rewrite IH. auto.
    + rewrite E2. rewrite E1 in Hp. rewrite !flat_map_app in *. cbn [flat_map contrib] in *.
      rewrite <- Hp. rewrite <- app_assoc. apply Permutation_app_head. cbn [app].
      rewrite (app_assoc (flat_map contrib l1)), (app_assoc mine). apply Permutation_app_tail, Permutation_app_comm.
    + rewrite nth_error_setth in H by auto. destruct (Nat.eqb_spec t0 t); [discriminate|].
      destruct (Hc t0 _ _ H) as [Hx _]; congruence.
    + rewrite nth_error_setth in H by auto. destruct (Nat.eqb_spec t0 t); [discriminate|].
      destruct (Hc t0 _ _ H) as [Hx _]; congruence.
    + rewrite nth_error_setth in H by auto. destruct (Nat.eqb_spec t0 t); [discriminate|].
      destruct (Hc t0 _ _ H) as [Hx _]; congruence.
    + intros u Hu. discriminate.
Qed.

Lemma Inv_steps m m' : Inv m -> steps nket nexc coupled m m' -> Inv m'.
Proof. intros H S. induction S; auto. apply IHS. eapply Inv_step; eauto. Qed.

Lemma Inv_start chunks : Permutation (keeps (concat chunks)) all -> Inv (start nexc chunks).
Proof.
  intros Hp. exists []. unfold start. cbn [threads exc iexc lock fault]. rewrite repeat_length.
  assert (E : flat_map contrib (map (fun c => Loop c []) chunks) = keeps (concat chunks)).
  { clear. induction chunks as [|c r IH]; cbn; auto. rewrite IH. unfold keeps. rewrite filter_app, map_app. auto. }
  repeat split; auto.
  - cbn [app]. rewrite E. auto.
  - rewrite nth_error_map in H. destruct (nth_error chunks t); discriminate.
  - rewrite nth_error_map in H. destruct (nth_error chunks t); discriminate.
  - rewrite nth_error_map in H. destruct (nth_error chunks t); discriminate.
  - discriminate.
Qed.

Lemma Inv_finished m : Inv m -> finished m ->
  exists w, exc m = flat_pairs w /\ Permutation w all.
Proof.
  intros (w & Hie & Hle & Hw & Hp & _) [Hd _]. exists w.
  assert (E : flat_map contrib (threads m) = []).
  { clear - Hd. induction Hd as [|s l -> Hl IH]; cbn; auto. }
  rewrite E, app_nil_r in Hp. split; auto. rewrite <- Hw.
  symmetry. apply firstn_all2. rewrite Hle, Hie, <- Hall, (Permutation_length Hp). auto.
Qed.

Lemma Inv_progress m : Inv m -> finished m \/ exists m', step nket nexc coupled m m'.
Proof.
  intros (w & Hie & Hle & Hw & Hp & Hc & Hk & Hf). destruct m as [ths e ie lk ft].
  cbn [threads exc iexc lock fault] in *. subst ft.
  destruct lk as [t|].
  - right. destruct (Hk t eq_refl) as (mine & i & Ht). destruct (Hc _ _ _ Ht) as (_ & Hi & _).
    destruct (Nat.eq_dec i (length mine * 2)) as [->|Hne].
    + eexists. eapply StepExit; eauto.
    + assert (Hlt : i < length (flat_pairs mine)) by (rewrite flat_pairs_length; lia).
      destruct (nth_error (flat_pairs mine) i) as [v|] eqn:E; [|apply nth_error_None in E; lia].
      eexists. eapply StepCopy; eauto.
  - assert (G : Forall (fun s => s = Done) ths \/ exists t todo mine, nth_error ths t = Some (Loop todo mine)).
    { clear - Hc. induction ths as [|s ths IH]; auto.
      destruct s as [todo mine|mine i|].
      - right. exists 0, todo, mine. auto.
      - destruct (Hc 0 mine i eq_refl) as [Hx _]. discriminate.
      - destruct IH as [IH|(t & todo & mine & IH)].
        + intros t mine i Ht. destruct (Hc (S t) mine i Ht). discriminate.
        + left; auto.
        + right. exists (S t), todo, mine. auto. }
    destruct G as [G|(t & todo & mine & Ht)]; [left; split; auto|right].
    destruct todo as [|iel todo].
    + eexists. apply StepEnter with (t := t) (mine := mine). auto.
    + destruct (coupled (iel / nket) (iel mod nket)) eqn:Ec.
      * eexists. eapply StepKeep; eauto.
      * eexists. eapply StepSkip; eauto.
Qed.

(** every execution stops *)
Definition tmeas (s : tstate) : nat :=
  match s with Loop todo mine => 3 * length todo + 2 * length mine + 2
  | Crit mine i => 2 * length mine - i + 1 | Done => 0 end.
Definition meas (m : mach) : nat := fold_right Nat.add 0 (map tmeas (threads m)).

Lemma meas_setth t s0 s ths : nth_error ths t = Some s0 -> tmeas s < tmeas s0 ->
  fold_right Nat.add 0 (map tmeas (setth t s ths)) < fold_right Nat.add 0 (map tmeas ths).
Proof.
  intros H Hlt. destruct (setth_split t s0 s ths H) as (l1 & l2 & -> & _ & ->).
  rewrite !map_app, !fold_right_app. cbn [map fold_right].
  assert (G : forall l a b, a < b -> fold_right Nat.add a l < fold_right Nat.add b l)
    by (induction l; cbn; intros; auto; specialize (IHl _ _ H0); lia).
  apply G. lia.
Qed.

Lemma step_meas m m' : step nket nexc coupled m m' -> meas m' < meas m.
Proof.
  destruct 1 as [t iel todo mine ths e ie lk Ht Hcp|t iel todo mine ths e ie lk Ht Hcp
    |t mine ths e ie Ht|t mine i v ths e ie lk Ht Hv|t mine i ths e ie lk Ht Hi]; unfold meas; cbn [threads];
    eapply meas_setth; eauto; cbn [tmeas length]; rewrite ?app_length; cbn [length]; try lia.
  apply nth_error_Some_lt in Hv. rewrite flat_pairs_length in Hv. lia.
Qed.

Lemma step_acc m : Acc (fun m2 m1 => step nket nexc coupled m1 m2) m.
Proof.
  remember (meas m) as n eqn:E. revert m E. induction n as [n IH] using lt_wf_ind. intros m ->.
  constructor. intros m' Hs. apply step_meas in Hs. eapply IH; eauto.
Qed.
End Run.

(** keeps of the whole loop is the list of all pairs *)
Lemma keeps_all nbra nket coupled :
  keeps nket coupled (seq 0 (nbra * nket)) = all_pairs nbra nket coupled.
Proof.
  unfold keeps, all_pairs. destruct nket as [|k].
  - rewrite Nat.mul_0_r. cbn [seq filter map].
    assert (E : forall l, list_prod l (seq 0 0) = @nil (nat * nat)) by (induction l; auto). rewrite E. auto.
  - set (nk := S k).
    assert (E : map (fun iel => (iel / nk, iel mod nk)) (seq 0 (nbra * nk)) = list_prod (seq 0 nbra) (seq 0 nk)).
    { assert (G : forall n b, map (fun iel => (iel / nk, iel mod nk)) (seq (b * nk) (n * nk)) = list_prod (seq b n) (seq 0 nk)).
      { induction n as [|n IH]; intros b; auto. replace (S n * nk) with (nk + n * nk) by lia.
        rewrite seq_app, map_app. cbn [seq list_prod]. f_equal.
        - replace (b * nk) with (b * nk + 0) by lia.
          assert (G : forall m c, c + m <= nk -> map (fun iel => (iel / nk, iel mod nk)) (seq (b * nk + c) m)
            = map (fun y => (b, y)) (seq c m)).
          { induction m as [|m IHm]; intros c Hc; auto. cbn [seq map].
            replace (S (b * nk + c)) with (b * nk + S c) by lia. rewrite IHm by lia. f_equal.
            assert (M : (b * nk + c) mod nk = c)
              by (rewrite (Nat.add_comm (b * nk) c), Nat.mod_add by (unfold nk; lia); apply Nat.mod_small; lia).
            rewrite M, Nat.div_add_l by (unfold nk; lia). rewrite Nat.div_small by lia. f_equal. lia. }
          apply G. lia.
        - replace (b * nk + nk) with (S b * nk) by lia. apply IH. }
      apply (G nbra 0). }
    rewrite <- E.
    assert (F : forall l, map (fun iel => (iel / nk, iel mod nk)) (filter (fun iel => coupled (iel / nk) (iel mod nk)) l)
      = filter (fun p => coupled (fst p) (snd p)) (map (fun iel => (iel / nk, iel mod nk)) l)).
    { induction l as [|x l IH]; cbn [filter map]; auto. cbn [fst snd].
      destruct (coupled (x / nk) (x mod nk)); cbn [map]; rewrite IH; auto. }
    apply F.
Qed.

Lemma keeps_perm nket coupled l1 l2 : Permutation l1 l2 ->
  Permutation (keeps nket coupled l1) (keeps nket coupled l2).
Proof.
  intros H. unfold keeps. apply Permutation_map. induction H; cbn.
  - auto.
  - destruct (coupled (x / nket) (x mod nket)); auto.
  - destruct (coupled (x / nket) (x mod nket)), (coupled (y / nket) (y mod nket)); auto. apply perm_swap.
  - eapply Permutation_trans; eauto.
Qed.

Lemma sc_count_eq nket coupled chunks :
  sc_count nket coupled chunks = Z.of_nat (length (keeps nket coupled (concat chunks))).
Proof.
  unfold sc_count, keeps. rewrite map_length.
  assert (G : forall cs n, fold_left (fun n c => n + Z.of_nat (length (filter (fun iel => coupled (iel / nket)%nat (iel mod nket)%nat) c)))%Z cs n
    = (n + Z.of_nat (length (filter (fun iel => coupled (iel / nket)%nat (iel mod nket)%nat) (concat cs))))%Z).
  { induction cs as [|c cs IH]; intros n; cbn [fold_left concat]; [cbn; lia|].
    rewrite IH, filter_app, app_length. lia. }
  rewrite G. auto.
Qed.

(** sorting rows *)
Definition row_le (p q : Z * Z) : Prop := leb_row p q = true.
Lemma leb_row_iff p q : leb_row p q = true <-> (fst p < fst q \/ (fst p = fst q /\ snd p <= snd q))%Z.
Proof. unfold leb_row. rewrite orb_true_iff, andb_true_iff, Z.ltb_lt, Z.eqb_eq, Z.leb_le. tauto. Qed.
Lemma row_le_total p q : leb_row p q = false -> row_le q p.
Proof.
  intros H. apply leb_row_iff. destruct (Z.lt_trichotomy (fst p) (fst q)) as [Hc|[Hc|Hc]]; [| |lia].
  - assert (leb_row p q = true) by (apply leb_row_iff; lia). congruence.
  - destruct (Z.le_gt_cases (snd p) (snd q)); [|lia].
    assert (leb_row p q = true) by (apply leb_row_iff; lia). congruence.
Qed.
Lemma insert_row_perm x l : Permutation (insert_row x l) (x :: l).
Proof.
  induction l as [|y l IH]; cbn; auto. destruct (leb_row x y); auto.
  rewrite IH. apply perm_swap.
Qed.
Lemma insert_row_sorted x l : StronglySorted row_le l -> StronglySorted row_le (insert_row x l).
Proof.
  induction 1 as [|y l Hl IH Hy]; cbn; [repeat constructor|].
  destruct (leb_row x y) eqn:E.
  - constructor; [constructor; auto|]. constructor; auto.
    eapply Forall_impl; [|exact Hy]. intros z Hz. unfold row_le in *. rewrite leb_row_iff in *. lia.
  - constructor; auto. apply Forall_forall. intros z Hz.
    apply (Permutation_in _ (insert_row_perm x l)) in Hz as [<-|Hz].
    + apply row_le_total; auto.
    + rewrite Forall_forall in Hy. auto.
Qed.
Lemma sort_rows_perm l : Permutation (sort_rows l) l.
Proof. induction l; cbn; auto. rewrite insert_row_perm. auto. Qed.
Lemma sort_rows_sorted l : StronglySorted row_le (sort_rows l).
Proof. induction l; cbn; [constructor|]. apply insert_row_sorted; auto. Qed.

Lemma rows_sorted_unique l1 : forall l2, StronglySorted row_le l1 -> StronglySorted row_le l2 ->
  Permutation l1 l2 -> l1 = l2.
Proof.
  induction l1 as [|x l1 IH]; intros l2 H1 H2 Hp.
  - apply Permutation_nil in Hp. auto.
  - destruct l2 as [|y l2]; [apply Permutation_sym, Permutation_nil in Hp; discriminate|].
    inversion H1 as [|? ? S1 F1]; subst. inversion H2 as [|? ? S2 F2]; subst.
    rewrite Forall_forall in F1, F2.
    assert (E : x = y).
    { assert (Hx : In x (y :: l2)) by (apply (Permutation_in _ Hp); left; auto).
      assert (Hy : In y (x :: l1)) by (apply (Permutation_in _ (Permutation_sym Hp)); left; auto).
      destruct Hx as [->|Hx]; auto. destruct Hy as [->|Hy]; auto.
      specialize (F1 _ Hy). specialize (F2 _ Hx). unfold row_le in *. rewrite leb_row_iff in *.
      destruct x, y. cbn [fst snd] in *. f_equal; lia. }
    subst y. f_equal. apply IH; auto. eapply Permutation_cons_inv; eauto.
Qed.

Lemma all_pairs_sorted nbra nket coupled : StronglySorted row_le (map as_row (all_pairs nbra nket coupled)).
Proof.
  unfold all_pairs.
  assert (G : forall n b, StronglySorted row_le (map as_row (list_prod (seq b n) (seq 0 nket)))).
  { induction n as [|n IH]; intros b; cbn [seq list_prod]; [constructor|].
    rewrite map_app, map_map.
    assert (A : forall m c, StronglySorted row_le (map (fun y => as_row (b, y)) (seq c m))).
    { induction m as [|m IHm]; intros c; cbn [seq map]; [constructor|]. constructor; auto.
      apply Forall_forall. intros z Hz. apply in_map_iff in Hz as (y & <- & Hy). apply in_seq in Hy.
      apply leb_row_iff. unfold as_row. cbn [fst snd]. lia. }
    specialize (A nket 0). specialize (IH (S b)).
    assert (Hx : forall p q, In p (map (fun y => as_row (b, y)) (seq 0 nket)) ->
      In q (map as_row (list_prod (seq (S b) n) (seq 0 nket))) -> row_le p q).
    { intros p q Hp Hq. apply in_map_iff in Hp as (y & <- & _). apply in_map_iff in Hq as ([c d] & <- & Hq).
      apply in_prod_iff in Hq as [Hq _]. apply in_seq in Hq. apply leb_row_iff. unfold as_row. cbn [fst snd]. lia. }
    induction A as [|p l HA IHA Hp]; cbn [app]; auto. constructor.
    - apply IHA. intros; apply Hx; auto. right; auto.
    - apply Forall_app. split; auto. apply Forall_forall. intros q Hq. apply Hx; auto. left; auto. }
  specialize (G nbra 0). revert G. generalize (list_prod (seq 0 nbra) (seq 0 nket)).
  induction l as [|p l IH]; intros G; cbn [filter map]; [constructor|]. cbn [map] in G.
  inversion G as [|? ? G1 G2]; subst. destruct (coupled (fst p) (snd p)); auto. cbn [map]. constructor; auto.
  rewrite Forall_forall in *. intros q Hq. apply G2. apply in_map_iff in Hq as (r & <- & Hr).
  apply filter_In in Hr as [Hr _]. apply in_map; auto.
Qed.

(** ** Summary *)
Section Summary.
Variables (n : nat) (coupled : nat -> nat -> bool) (c1 c2 : list (list nat)).
Hypothesis P1 : Permutation (concat c1) (seq 0 (n * n)).
Hypothesis P2 : Permutation (concat c2) (seq 0 (n * n)).
Let want := all_pairs n n coupled.

Lemma count_want : sc_count n coupled c1 = Z.of_nat (length want).
Proof.
  rewrite sc_count_eq. f_equal. unfold want. rewrite <- keeps_all. apply Permutation_length, keeps_perm; auto.
Qed.

Lemma run_Inv m : steps n (length want) coupled (start (length want) c2) m -> Inv n (length want) coupled want m.
Proof.
  intros Hs. refine (Inv_steps n (length want) coupled want eq_refl _ _ _ Hs). apply Inv_start.
  unfold want. rewrite <- keeps_all. apply keeps_perm; auto.
Qed.

Lemma run_result m : steps n (length want) coupled (start (length want) c2) m -> finished m ->
  sort_rows (rows_of (exc m)) = map as_row want.
Proof.
  intros Hs Hf. destruct (Inv_finished n (length want) coupled want eq_refl m (run_Inv m Hs) Hf) as (w & -> & Hp).
  rewrite rows_of_flat. apply rows_sorted_unique; [apply sort_rows_sorted|apply all_pairs_sorted|].
  rewrite sort_rows_perm. apply Permutation_map; auto.
Qed.

Lemma as_c_int_id z : (- 2 ^ 31 <= z < 2 ^ 31)%Z -> as_c_int z = z.
Proof. intros H. unfold as_c_int. rewrite Z.mod_small; lia. Qed.

Lemma scallowed_result r : (Z.of_nat (length want) < 2 ^ 31)%Z -> scallowed n coupled c1 c2 r ->
  r = Ok (map as_row want).
Proof.
  intros Hb H. destruct H as [Hneg|nexc m He Hs Hf].
  - rewrite count_want, as_c_int_id in Hneg; lia.
  - rewrite count_want, as_c_int_id in He by lia. apply Nat2Z.inj in He. subst nexc.
    f_equal. apply run_result; auto.
Qed.

Lemma scallowed_total : (Z.of_nat (length want) < 2 ^ 31)%Z ->
  forall m, steps n (length want) coupled (start (length want) c2) m ->
  fault m = false /\ Acc (fun m2 m1 => step n (length want) coupled m1 m2) m /\
  ((forall m', ~ step n (length want) coupled m m') -> scallowed n coupled c1 c2 (Ok (map as_row want))).
Proof.
  intros Hb m Hs. assert (HI := run_Inv m Hs). split; [|split].
  - destruct HI as (w & H). apply H.
  - eapply (step_acc n (length want) coupled want); eauto.
  - intros Hst. destruct (Inv_progress n (length want) coupled want eq_refl m HI) as [Hf|(m' & Hm)]; [|elim (Hst m'); auto].
    rewrite <- (run_result m Hs Hf). apply SCrun with (nexc := length want); auto.
    rewrite count_want, as_c_int_id; lia.
Qed.
End Summary.
