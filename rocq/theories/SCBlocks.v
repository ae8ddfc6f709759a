(** Contiguous blocks of a mask and division of an array among threads. *)
From Coq Require Import List ZArith Lia Bool Arith.
From Verif Require Import Base BaseFacts SCModel.
Import ListNotations.
Local Open Scope nat_scope.

Fixpoint trues (p : nat) (l : list bool) : list nat :=
  match l with [] => [] | x :: r => (if x then [p] else []) ++ trues (S p) r end.

Lemma where_true_trues l : where_true l = trues 0 l.
Proof.
  unfold where_true.
  assert (G : forall l p, filter (fun k => nth (k - p) l false) (seq p (length l)) = trues p l).
  { clear. induction l as [|x l IH]; intros p; auto. cbn [length seq filter trues]. rewrite Nat.sub_diag.
    change (nth 0 (x :: l) false) with x. rewrite <- IH.
    assert (E : filter (fun k => nth (k - p) (x :: l) false) (seq (S p) (length l))
              = filter (fun k => nth (k - S p) l false) (seq (S p) (length l))).
    { apply filter_ext_in. intros k Hk. apply in_seq in Hk. replace (k - p) with (S (k - S p)) by lia. auto. }
    rewrite E. destruct x; auto. }
  rewrite <- G. apply filter_ext. intros k. rewrite Nat.sub_0_r. auto.
Qed.

Fixpoint starts (prev : bool) (p : nat) (l : list bool) : list nat :=
  match l with [] => [] | x :: r => (if x && negb prev then [p] else []) ++ starts x (S p) r end.
Fixpoint ends (p : nat) (l : list bool) : list nat :=
  match l with [] => [] | x :: r => (if x && negb (hd false r) then [p] else []) ++ ends (S p) r end.

Lemma starts_eq l : forall prev p,
  trues p (map (fun q => fst q && negb (snd q)) (combine l (prev :: removelast l))) = starts prev p l.
Proof.
  induction l as [|x l IH]; intros prev p; auto. cbn [combine map trues starts fst snd]. f_equal.
  destruct l as [|y l]; auto. change (removelast (x :: y :: l)) with (x :: removelast (y :: l)). apply IH.
Qed.
Lemma ends_eq l : forall p,
  trues p (map (fun q => fst q && negb (snd q)) (combine l (tl l ++ [false]))) = ends p l.
Proof.
  induction l as [|x l IH]; intros p; auto. cbn [tl]. destruct l as [|y l].
  - cbn. destruct x; auto.
  - cbn [app combine map trues ends fst snd hd]. f_equal. apply IH.
Qed.

Definition cover (ss es : list nat) : list nat := flat_map (fun q => seq (fst q) (snd q - fst q + 1)) (combine ss es).

Lemma cover_spec l : forall p,
  (forall s, s <= p -> hd false l = true ->
     length (s :: starts true p l) = length (ends p l) /\
     cover (s :: starts true p l) (ends p l) = seq s (p - s) ++ trues p l) /\
  (length (starts false p l) = length (ends p l) /\ cover (starts false p l) (ends p l) = trues p l) /\
  (hd false l = false -> starts true p l = starts false p l).
Proof.
  induction l as [|x l IH]; intros p.
  - repeat split; auto; discriminate.
  - destruct (IH (S p)) as (IA & [IB1 IB2] & IC). cbn [starts ends trues hd]. repeat split.
    + subst x. cbn [andb negb app]. destruct (hd false l) eqn:E; cbn [negb app].
      * destruct (IA s ltac:(lia) eq_refl) as [L _]. exact L.
      * rewrite (IC eq_refl). cbn [length]. lia.
    + subst x. cbn [andb negb app]. destruct (hd false l) eqn:E; cbn [negb app].
      * destruct (IA s ltac:(lia) eq_refl) as [_ C]. rewrite C.
        replace (S p - s) with (p - s + 1) by lia. rewrite seq_app, <- app_assoc. cbn [app seq].
        replace (s + (p - s)) with p by lia. auto.
      * rewrite (IC eq_refl). unfold cover in *. cbn [combine flat_map fst snd]. rewrite IB2, seq_app.
        rewrite <- app_assoc. cbn [app seq]. replace (s + (p - s)) with p by lia. auto.
    + destruct x; cbn [andb negb app]; auto. destruct (hd false l) eqn:E; cbn [negb app].
      * destruct (IA p ltac:(lia) eq_refl) as [L _]. auto.
      * rewrite (IC eq_refl). cbn [length]. lia.
    + destruct x; cbn [andb negb app]; auto. destruct (hd false l) eqn:E; cbn [negb app].
      * destruct (IA p ltac:(lia) eq_refl) as [_ C]. rewrite C. replace (S p - p) with 1 by lia. auto.
      * rewrite (IC eq_refl). unfold cover in *. cbn [combine flat_map fst snd]. rewrite IB2, Nat.sub_diag. auto.
    + intros ->. reflexivity.
Qed.

Fixpoint cumn (acc : nat) (l : list nat) : list nat :=
  match l with [] => [] | x :: r => (acc + x) :: cumn (acc + x) r end.
Lemma cumn_nth l : forall acc k, k < length l -> nth k (cumn acc l) 0 = acc + fold_right Nat.add 0 (firstn (S k) l).
Proof.
  induction l as [|x l IH]; intros acc k H; [cbn in H; lia|]. destruct k as [|k]; cbn [cumn nth firstn fold_right]; [lia|].
  rewrite IH by (cbn in H; lia). cbn [firstn fold_right]. lia.
Qed.
Lemma cumn_length l : forall acc, length (cumn acc l) = length l.
Proof. induction l; cbn; auto. Qed.

Lemma removelast_length {A} (l : list A) : length (removelast l) = length l - 1.
Proof. induction l as [|x [|y l] IH]; auto. change (S (length (removelast (y :: l))) = length (x :: y :: l) - 1). rewrite IH. cbn. lia. Qed.
Lemma firstn_removelast {A} (l : list A) : forall k, k < length l -> firstn k (removelast l) = firstn k l.
Proof.
  induction l as [|x l IH]; intros k H; [cbn in H; lia|]. destruct k as [|k]; auto.
  destruct l as [|y l]; [cbn in H; lia|]. change (x :: firstn k (removelast (y :: l)) = x :: firstn k (y :: l)).
  rewrite IH by (cbn in *; lia). auto.
Qed.

Lemma contig_unfold mask : get_contig_blks mask =
  let d := starts false 0 mask in let e := ends 0 mask in
  let bl := map (fun p => snd p - fst p + 1) (combine d e) in
  (cumn 0 (0 :: removelast bl), d, bl).
Proof.
  unfold get_contig_blks. rewrite !where_true_trues, starts_eq, ends_eq. reflexivity.
Qed.

Lemma contig_blocks mask : let '(src, dest, bl) := get_contig_blks mask in
  length bl = length dest /\
  flat_map (fun q => seq (fst q) (snd q)) (combine dest bl) = where_true mask /\
  (forall k, k < length bl -> nth k src 0 = fold_right Nat.add 0 (firstn k bl)) /\
  (In true mask -> length src = length dest).
Proof.
  rewrite contig_unfold, where_true_trues. cbv zeta.
  destruct (cover_spec mask 0) as (_ & [L C] & _).
  set (d := starts false 0 mask) in *. set (e := ends 0 mask) in *.
  assert (Lb : length (map (fun p => snd p - fst p + 1) (combine d e)) = length d)
    by (rewrite map_length, combine_length; lia).
  split; [auto|]. split; [|split].
  - rewrite <- C. unfold cover. clear. clearbody d e. revert e. induction d as [|x d IH]; intros [|y e]; auto.
    cbn [combine map flat_map fst snd]. rewrite IH. auto.
  - intros k Hk. rewrite cumn_nth by (cbn [length]; rewrite removelast_length; lia).
    cbn [firstn fold_right]. rewrite firstn_removelast by auto. auto.
  - intros Hin. rewrite cumn_length. cbn [length]. rewrite removelast_length, Lb.
    assert (Hd : d <> []).
    { intros E. unfold cover in C. rewrite E in C. cbn in C. symmetry in C.
      clear - Hin C. revert C. generalize 0. induction mask as [|x m IH]; intros p C; [destruct Hin|].
      cbn in C. destruct Hin as [->|Hin]; [discriminate|]. destruct x; [discriminate|]. eapply IH; eauto. }
    destruct d; [congruence|]. cbn. lia.
Qed.

Lemma in_trues l : forall p k, In k (trues p l) <-> p <= k /\ nth (k - p) l false = true.
Proof.
  induction l as [|x l IH]; intros p k; cbn [trues].
  - split; [intros []|]. intros [_ H]. destruct (k - p); discriminate.
  - rewrite in_app_iff, IH. split.
    + intros [H|[H1 H2]].
      * destruct x; [|destruct H]. destruct H as [<-|[]]. rewrite Nat.sub_diag. auto.
      * split; [lia|]. replace (k - p) with (S (k - S p)) by lia. auto.
    + intros [H1 H2]. destruct (Nat.eq_dec k p) as [->|Hne].
      * left. rewrite Nat.sub_diag in H2. cbn in H2. subst. left. auto.
      * right. split; [lia|]. replace (k - p) with (S (k - S p)) in H2 by lia. auto.
Qed.

Lemma starts_in l : forall prev p k, In k (starts prev p l) ->
  p <= k /\ nth (k - p) l false = true /\ (if k =? p then prev = false else nth (k - p - 1) l false = false).
Proof.
  induction l as [|x l IH]; intros prev p k; cbn [starts]; [intros []|].
  rewrite in_app_iff. intros [H|H].
  - destruct x; [|destruct H]. destruct prev; [destruct H|]. destruct H as [<-|[]].
    rewrite Nat.eqb_refl, Nat.sub_diag. auto.
  - apply IH in H as (H1 & H2 & H3). split; [lia|].
    replace (k - p) with (S (k - S p)) by lia. split; auto.
    destruct (Nat.eqb_spec k p); [lia|]. destruct (Nat.eqb_spec k (S p)) as [->|Hne].
    + replace (S (S p - S p) - 1) with 0 by lia. auto.
    + replace (S (k - S p) - 1) with (S (k - S p - 1)) by lia. auto.
Qed.
Lemma ends_in l : forall p k, In k (ends p l) ->
  p <= k /\ nth (k - p) l false = true /\ nth (S (k - p)) l false = false.
Proof.
  induction l as [|x l IH]; intros p k; cbn [ends]; [intros []|].
  rewrite in_app_iff. intros [H|H].
  - destruct x; [|destruct H]. destruct (hd false l) eqn:E; [destruct H|]. destruct H as [<-|[]].
    rewrite Nat.sub_diag. split; auto. split; auto. cbn [nth]. destruct l; auto.
  - apply IH in H as (H1 & H2 & H3). split; [lia|]. replace (k - p) with (S (k - S p)) by lia. auto.
Qed.

Lemma contig_maximal mask : let '(src, dest, bl) := get_contig_blks mask in
  forall s n, In (s, n) (combine dest bl) ->
  0 < n /\ (0 < s -> nth (s - 1) mask false = false) /\ nth (s + n) mask false = false.
Proof.
  rewrite contig_unfold. cbv zeta. intros s n Hin.
  destruct (cover_spec mask 0) as (_ & [L C] & _).
  set (d := starts false 0 mask) in *. set (e := ends 0 mask) in *.
  assert (G : exists t, In (s, t) (combine d e) /\ n = t - s + 1).
  { clear - Hin. revert Hin. generalize e. induction d as [|x d IH]; intros [|y e'] H; try destruct H.
    - cbn [combine map fst snd] in H. exists y. injection H as <- <-. cbn. auto.
    - cbn [combine map fst snd] in H. apply IH in H as (t & H1 & H2). exists t. cbn. auto. }
  destruct G as (t & Ht & ->).
  assert (Hd : In s d) by (eapply in_combine_l; eauto). assert (He : In t e) by (eapply in_combine_r; eauto).
  apply starts_in in Hd as (_ & Hd1 & Hd2). apply ends_in in He as (_ & He1 & He2).
  rewrite Nat.sub_0_r in *.
  assert (Hst : s <= t).
  { destruct (Nat.le_gt_cases s t); auto. exfalso.
    assert (Hc : In (s, t) (combine d e)) by auto.
    (* a start after its own end would make the cover too long: use monotonic pairing *)
    clear - Hc H L C.
    assert (G : forall l p, Forall2 (fun a b => a <= b) (starts false p l) (ends p l) /\
      (hd false l = true -> forall a, a <= p -> Forall2 (fun a b => a <= b) (a :: starts true p l) (ends p l)) /\
      (hd false l = false -> starts true p l = starts false p l)).
    { induction l as [|x l IH]; intros p.
      - split; [constructor|split; [discriminate|auto]].
      - destruct (IH (S p)) as (IA & IB & IC). cbn [starts ends hd]. repeat split.
        + destruct x; cbn [andb negb app]; auto. destruct (hd false l) eqn:E; cbn [negb app].
          * apply IB; auto.
          * rewrite (IC eq_refl). constructor; auto.
        + intros -> a Ha. cbn [andb negb app]. destruct (hd false l) eqn:E; cbn [negb app].
          * apply IB; auto.
          * rewrite (IC eq_refl). constructor; auto.
        + intros ->. reflexivity. }
    destruct (G mask 0) as [F _]. fold d e in F. clear - F Hc H.
    induction F as [|a b d' e' Hab F IH]; [destruct Hc|].
    destruct Hc as [Hc|Hc]; [injection Hc as <- <-; lia|auto]. }
  split; [lia|]. split.
  - intros Hs. destruct (Nat.eqb_spec s 0); [lia|]. auto.
  - replace (s + (t - s + 1)) with (S t) by lia. auto.
Qed.

(** division among threads *)
Lemma cumn_eq l : forall acc, (fix cum (acc : nat) (l : list nat) : list nat :=
      match l with [] => [] | x :: r => (acc + x)%nat :: cum (acc + x)%nat r end) acc l = cumn acc l.
Proof. induction l; intros; cbn; f_equal; auto. Qed.

Lemma sum_split q : forall n b rem, fold_right Nat.add 0 (map (fun k => if k <? rem then S q else q) (seq b n))
  = n * q + (Nat.min (b + n) rem - Nat.min b rem).
Proof.
  induction n as [|n IH]; intros b rem; cbn [seq map fold_right]; [lia|].
  rewrite IH. destruct (Nat.ltb_spec b rem); lia.
Qed.

Lemma cumn_last l : forall acc, l <> [] -> last (cumn acc l) 0 = acc + fold_right Nat.add 0 l.
Proof.
  induction l as [|x l IH]; intros acc H; [congruence|]. destruct l as [|y l]; [cbn; lia|].
  change (last (cumn (acc + x) (y :: l)) 0 = acc + fold_right Nat.add 0 (x :: y :: l)).
  rewrite IH by discriminate. cbn [fold_right]. lia.
Qed.

Lemma split_contig_ok arrlen nthreads : 0 < arrlen -> 0 < nthreads ->
  exists st bl, split_contig_array arrlen nthreads = Ok (st, bl) /\
  length st = Nat.min arrlen nthreads /\ length bl = Nat.min arrlen nthreads /\
  fold_right Nat.add 0 bl = arrlen /\
  (forall k, k < length bl -> nth k st 0 = fold_right Nat.add 0 (firstn k bl)) /\
  (forall k, k < length bl -> arrlen / Nat.min arrlen nthreads <= nth k bl 0 <= S (arrlen / Nat.min arrlen nthreads)
     /\ 1 <= nth k bl 0).
Proof.
  intros H1 H2. unfold split_contig_array. set (m := Nat.min arrlen nthreads).
  assert (Hm : 0 < m <= arrlen) by (unfold m; lia). clearbody m. clear nthreads H2.
  destruct m as [|m0]; [lia|]. set (m := S m0) in *.
  set (q := arrlen / m). set (rem := arrlen mod m).
  assert (Hq : arrlen = m * q + rem) by (apply Nat.div_mod; lia).
  assert (Hrem : rem < m) by (apply Nat.mod_upper_bound; lia).
  assert (Hq1 : 1 <= q) by (apply Nat.div_le_lower_bound; lia).
  set (bl := map (fun k => if k <? rem then S q else q) (seq 0 m)). cbv zeta.
  assert (Hsum : fold_right Nat.add 0 bl = arrlen) by (unfold bl; rewrite sum_split; lia).
  assert (Hlen : length bl = m) by (unfold bl; rewrite map_length, seq_length; auto).
  rewrite cumn_eq, cumn_last by (intros E; rewrite E in Hlen; discriminate).
  rewrite Hsum, Nat.add_0_l, Nat.eqb_refl. cbn [py_assert].
  eexists _, bl. split; [reflexivity|].
  rewrite map_length, combine_length, cumn_length, Hlen. repeat split; auto; try lia.
  - intros k Hk.
    set (f := fun p : nat * nat => fst p - snd p).
    rewrite (nth_indep _ 0 (f (0, 0))) by (rewrite map_length, combine_length, cumn_length; lia).
    rewrite map_nth, combine_nth by (rewrite cumn_length; auto). unfold f. cbn [fst snd].
    rewrite cumn_nth by lia.
    assert (E : fold_right Nat.add 0 (firstn (S k) bl) = fold_right Nat.add 0 (firstn k bl) + nth k bl 0).
    { clear - Hlen Hk. revert k Hk. rewrite <- Hlen. clear. induction bl as [|x bl IH]; intros k Hk; [cbn in Hk; lia|].
      destruct k as [|k]; cbn [firstn fold_right nth]; [lia|]. cbn [firstn fold_right] in IH. rewrite IH by (cbn in Hk; lia). lia. }
    lia.
  - unfold bl. set (f := fun k => if k <? rem then S q else q).
    rewrite (nth_indep _ 0 (f 0)) by (rewrite map_length, seq_length; lia).
    rewrite map_nth. unfold f. destruct (_ <? rem); lia.
  - unfold bl. set (f := fun k => if k <? rem then S q else q).
    rewrite (nth_indep _ 0 (f 0)) by (rewrite map_length, seq_length; lia).
    rewrite map_nth. unfold f. destruct (_ <? rem); lia.
  - unfold bl. set (f := fun k => if k <? rem then S q else q).
    rewrite (nth_indep _ 0 (f 0)) by (rewrite map_length, seq_length; lia).
    rewrite map_nth. unfold f. destruct (_ <? rem); lia.
Qed.
