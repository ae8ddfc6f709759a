(** Facts about determinant strings and their addresses. *)
From Coq Require Import List Arith Bool Lia Sorting.Sorted.
From Verif Require Import Base BaseFacts Star SignsModel DetModel.
Import ListNotations.
Local Open Scope nat_scope.

Lemma num_0_r n : num_strings n 0 = 1.
Proof. destruct n; reflexivity. Qed.
Lemma num_S n k : num_strings (S n) (S k) = num_strings n (S k) + num_strings n k.
Proof. reflexivity. Qed.

Lemma count_app s t : count (s ++ t) = count s + count t.
Proof. induction s; cbn [count app]; auto. rewrite IHs; lia. Qed.

Lemma strs_length n : forall k, length (strs n k) = num_strings n k.
Proof.
  induction n; intros k; destruct k; cbn [strs num_strings]; auto.
  - rewrite app_nil_r, map_length, IHn, num_0_r; auto.
  - rewrite app_length, !map_length, !IHn; auto.
Qed.

Lemma count_le s : count s <= length s.
Proof. induction s as [|[]]; cbn [count length]; lia. Qed.

Lemma in_strs n : forall k s, In s (strs n k) <-> length s = n /\ count s = k.
Proof.
  induction n; intros k s.
  - cbn [strs]. split.
    + destruct k; cbn; [intros [<-|[]]; auto|tauto].
    + intros [H1 H2]. destruct s; [|discriminate]. cbn in H2; subst; left; auto.
  - cbn [strs]. rewrite in_app_iff, in_map_iff. split.
    + intros [(t & <- & Ht)|H].
      * apply IHn in Ht as [H1 H2]. rewrite app_length, count_app; cbn; lia.
      * destruct k as [|k]; [destruct H|]. apply in_map_iff in H as (t & <- & Ht).
        apply IHn in Ht as [H1 H2]. rewrite app_length, count_app; cbn; lia.
    + intros [H1 H2]. destruct (exists_last (l := s)) as (t & b & ->).
      { intros ->; discriminate. }
      rewrite app_length in H1; cbn in H1. rewrite count_app in H2; cbn in H2.
      destruct b.
      * right. destruct k as [|k]; [lia|]. apply in_map_iff. exists t; split; auto. apply IHn; lia.
      * left. exists t; split; auto. apply IHn; lia.
Qed.

Lemma addr_app n : forall k s t, length s = n -> addr n k (s ++ t) = addr n k s.
Proof.
  assert (G : forall m k s t, m <= length s -> addr m k (s ++ t) = addr m k s).
  { induction m; intros k s t H; cbn [addr]; auto.
    rewrite app_nth1 by lia. rewrite !IHm by lia. auto. }
  intros; apply G; lia.
Qed.

Lemma addr_snoc n k s b : length s = n ->
  addr (S n) k (s ++ [b]) = if b then num_strings n k + addr n (k - 1) s else addr n k s.
Proof.
  intros H. cbn [addr]. rewrite app_nth2 by lia. rewrite H, Nat.sub_diag. cbn [nth].
  destruct b; rewrite addr_app; auto.
Qed.

(** the address is the position in the list of strings *)
Lemma addr_nth n : forall k s, length s = n -> count s = k -> nth_error (strs n k) (addr n k s) = Some s.
Proof.
  induction n; intros k s H1 H2.
  - destruct s; [|discriminate]. cbn in H2; subst. reflexivity.
  - destruct (exists_last (l := s)) as (t & b & ->); [intros ->; discriminate|].
    rewrite app_length in H1; cbn in H1. rewrite count_app in H2; cbn in H2.
    rewrite addr_snoc by lia. cbn [strs]. destruct b.
    + destruct k as [|k]; [lia|]. cbn [Nat.sub]. rewrite Nat.sub_0_r.
      rewrite nth_error_app2; rewrite map_length, strs_length; [|lia].
      replace (num_strings n (S k) + addr n k t - num_strings n (S k)) with (addr n k t) by lia.
      apply (map_nth_error (fun s => s ++ [true])), IHn; lia.
    + rewrite nth_error_app1.
      * apply (map_nth_error (fun s => s ++ [false])), IHn; lia.
      * rewrite map_length. apply nth_error_Some. rewrite IHn; [congruence|lia|lia].
Qed.

Lemma addr_lt n k s : length s = n -> count s = k -> addr n k s < num_strings n k.
Proof.
  intros H1 H2. rewrite <- strs_length. apply nth_error_Some. rewrite addr_nth; auto. congruence.
Qed.

Lemma addr_inj n k s t : length s = n -> count s = k -> length t = n -> count t = k ->
  addr n k s = addr n k t -> s = t.
Proof.
  intros H1 H2 H3 H4 E. pose proof (addr_nth n k s H1 H2) as A. rewrite E, addr_nth in A; auto.
  congruence.
Qed.

(** Integer value of a string *)
Fixpoint val (s : det) : nat :=
  match s with [] => 0 | b :: r => b2n b + 2 * val r end.

Lemma val_lt s : val s < 2 ^ length s.
Proof.
  induction s as [|b s IH]; cbn [val length]; [cbn; lia|]. rewrite Nat.pow_succ_r'. destruct b; cbn [b2n]; lia.
Qed.
Lemma val_app s t : val (s ++ t) = val s + 2 ^ length s * val t.
Proof.
  induction s as [|b s IH]; cbn [val length app]; [cbn; lia|]. rewrite IH, Nat.pow_succ_r'. lia.
Qed.

Definition ltv (s t : det) : Prop := val s < val t.

Lemma SS_app {A} (R : A -> A -> Prop) l1 l2 : StronglySorted R l1 -> StronglySorted R l2 ->
  (forall x y, In x l1 -> In y l2 -> R x y) -> StronglySorted R (l1 ++ l2).
Proof.
  induction 1 as [|a l Hl IH Ha]; intros H2 H; cbn; auto. constructor.
  - apply IH; auto. intros; apply H; auto. right; auto.
  - apply Forall_app; split; auto. apply Forall_forall. intros; apply H; auto. left; auto.
Qed.
Lemma SS_map {A B} (R : A -> A -> Prop) (Q : B -> B -> Prop) (f : A -> B) l :
  StronglySorted R l -> (forall x y, In x l -> In y l -> R x y -> Q (f x) (f y)) -> StronglySorted Q (map f l).
Proof.
  induction 1 as [|a l Hl IH Ha]; intros H; cbn; constructor.
  - apply IH. intros; apply H; auto; right; auto.
  - apply Forall_map. rewrite Forall_forall in *. intros x Hx. apply H; auto; [left|right]; auto.
Qed.
Lemma SS_filter {A} (R : A -> A -> Prop) f (l : list A) : StronglySorted R l -> StronglySorted R (filter f l).
Proof.
  induction 1 as [|a l Hl IH Ha]; cbn; [constructor|]. destruct (f a); auto. constructor; auto.
  rewrite Forall_forall in *. intros x Hx. apply filter_In in Hx as [Hx _]. auto.
Qed.
Lemma SS_flat_map {A B} (R : A -> A -> Prop) (Q : B -> B -> Prop) (f : A -> list B) l :
  StronglySorted R l -> (forall x, In x l -> StronglySorted Q (f x)) ->
  (forall x y u v, In x l -> In y l -> R x y -> In u (f x) -> In v (f y) -> Q u v) ->
  StronglySorted Q (flat_map f l).
Proof.
  induction 1 as [|a l Hl IH Ha]; intros H1 H2; cbn; [constructor|]. apply SS_app.
  - apply H1; left; auto.
  - apply IH; intros; [apply H1; right; auto|]. apply (H2 x y); auto; right; auto.
  - intros u v Hu Hv. apply in_flat_map in Hv as (y & Hy & Hv). rewrite Forall_forall in Ha.
    apply (H2 a y); auto; [left|right]; auto.
Qed.
Lemma SS_nth {A} (R : A -> A -> Prop) (l : list A) : StronglySorted R l ->
  forall i j x y, nth_error l i = Some x -> nth_error l j = Some y -> i < j -> R x y.
Proof.
  induction 1 as [|a l Hl IH Ha]; intros i j x y Hi Hj Hij.
  - destruct i; discriminate.
  - destruct j as [|j]; [lia|]. destruct i as [|i]; cbn in Hi, Hj.
    + injection Hi as <-. rewrite Forall_forall in Ha. apply Ha. eapply nth_error_In; eauto.
    + apply (IH i j); auto; lia.
Qed.
Lemma SS_lt_unique l1 l2 : StronglySorted lt l1 -> StronglySorted lt l2 ->
  (forall x, In x l1 <-> In x l2) -> l1 = l2.
Proof.
  revert l2. induction l1 as [|a l1 IH]; intros l2 H1 H2 H.
  - destruct l2; auto. exfalso. apply (H n). left; auto.
  - destruct l2 as [|b l2]; [exfalso; apply (H a); left; auto|].
    apply StronglySorted_inv in H1 as [S1 F1]. apply StronglySorted_inv in H2 as [S2 F2].
    rewrite Forall_forall in F1, F2.
    assert (a = b).
    { destruct (proj1 (H a) (or_introl eq_refl)) as [E|E]; auto.
      destruct (proj2 (H b) (or_introl eq_refl)) as [E'|E']; auto.
      apply F2 in E. apply F1 in E'. lia. }
    subst b. f_equal. apply IH; auto. intros x. specialize (H x). cbn in H. split; intros Hx.
    + destruct (proj1 H (or_intror Hx)) as [->|]; auto. apply F1 in Hx; lia.
    + destruct (proj2 H (or_intror Hx)) as [->|]; auto. apply F2 in Hx; lia.
Qed.
Lemma SS_lt_NoDup l : StronglySorted lt l -> NoDup l.
Proof.
  induction 1 as [|a l Hl IH Ha]; constructor; auto. intros Hx. rewrite Forall_forall in Ha.
  apply Ha in Hx; lia.
Qed.
Lemma SS_seq n : forall a, StronglySorted lt (seq a n).
Proof.
  induction n; intros a; cbn; constructor; auto. apply Forall_forall. intros x Hx.
  apply in_seq in Hx; lia.
Qed.

Lemma strs_sorted n : forall k, StronglySorted ltv (strs n k).
Proof.
  induction n; intros k; cbn [strs].
  - destruct k; repeat constructor.
  - apply SS_app.
    + apply (SS_map ltv); auto. intros x y Hx Hy. apply in_strs in Hx as [Hx _]. apply in_strs in Hy as [Hy _].
      unfold ltv. rewrite !val_app, Hx, Hy. cbn [val b2n]. lia.
    + destruct k; [constructor|]. apply (SS_map ltv); auto. intros x y Hx Hy.
      apply in_strs in Hx as [Hx _]. apply in_strs in Hy as [Hy _].
      unfold ltv. rewrite !val_app, Hx, Hy. cbn [val b2n]. lia.
    + intros x y Hx Hy. apply in_map_iff in Hx as (s & <- & Hs). destruct k; [destruct Hy|].
      apply in_map_iff in Hy as (t & <- & Ht). apply in_strs in Hs as [Hs _]. apply in_strs in Ht as [Ht _].
      unfold ltv. rewrite !val_app, Hs, Ht. cbn [val b2n]. pose proof (val_lt s) as V. rewrite Hs in V. lia.
Qed.

Lemma strs_NoDup n k : NoDup (strs n k).
Proof.
  assert (G : forall l, StronglySorted ltv l -> NoDup l).
  { induction 1 as [|a l Hl IH Ha]; constructor; auto. intros Hx. rewrite Forall_forall in Ha.
    apply Ha in Hx. unfold ltv in Hx; lia. }
  apply G, strs_sorted.
Qed.

Lemma addr_mono n k s t : length s = n -> count s = k -> length t = n -> count t = k ->
  val s < val t -> addr n k s < addr n k t.
Proof.
  intros H1 H2 H3 H4 V. pose proof (addr_nth n k s H1 H2) as A. pose proof (addr_nth n k t H3 H4) as B.
  destruct (lt_eq_lt_dec (addr n k s) (addr n k t)) as [[H|H]|H]; auto; exfalso.
  - rewrite H, B in A. injection A as ->. lia.
  - pose proof (SS_nth _ _ (strs_sorted n k) _ _ _ _ B A H) as C. unfold ltv in C; lia.
Qed.

(** *** index_of *)
Lemma index_of_Some x l i : index_of x l = Some i -> nth_error l i = Some x.
Proof.
  revert i; induction l as [|y l IH]; intros i; cbn; [discriminate|].
  destruct (Nat.eqb_spec x y) as [->|]; [intros [= <-]; reflexivity|].
  destruct (index_of x l); cbn; [|discriminate]. intros [= <-]. cbn. auto.
Qed.
Lemma index_of_None x l : index_of x l = None <-> ~ In x l.
Proof.
  induction l as [|y l IH]; cbn; [tauto|]. destruct (Nat.eqb_spec x y) as [->|].
  - split; [discriminate|tauto].
  - destruct (index_of x l); cbn.
    + split; [discriminate|]. intros H. exfalso. destruct IH as [_ IH]. 
      discriminate IH. tauto.
    + split; auto. intros _ [->|]; tauto.
Qed.
Lemma index_of_nth l i x : NoDup l -> nth_error l i = Some x -> index_of x l = Some i.
Proof.
  intros HN H. destruct (index_of x l) eqn:E.
  - apply index_of_Some in E. f_equal. rewrite NoDup_nth_error in HN. apply HN.
    + apply nth_error_Some; congruence.
    + congruence.
  - apply index_of_None in E. exfalso; apply E. eapply nth_error_In; eauto.
Qed.
