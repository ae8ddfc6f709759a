(** Lemmas about the helpers of [Base]. *)
From Coq Require Import List ZArith Lia Bool Sorting.Sorted Sorting.Permutation.
From Verif Require Import Base.
Import ListNotations.
Local Open Scope Z_scope.

Lemma sumZ_app l1 l2 : sumZ (l1 ++ l2) = sumZ l1 + sumZ l2.
Proof. induction l1; cbn in *; lia. Qed.

Lemma upd_length {A} k (f : A -> A) l : length (upd k f l) = length l.
Proof. revert k; induction l; intros [|k]; cbn; auto. Qed.

Lemma nth_error_upd_eq {A} k (f : A -> A) l :
  nth_error (upd k f l) k = option_map f (nth_error l k).
Proof. revert k; induction l; intros [|k]; cbn; auto. Qed.

Lemma nth_error_upd_neq {A} k j (f : A -> A) l :
  j <> k -> nth_error (upd k f l) j = nth_error l j.
Proof.
  revert k j; induction l; intros [|k] [|j] H; cbn; auto; try congruence.
Qed.

Lemma sumZ_upd (g : Z -> Z) k l x :
  nth_error l k = Some x -> sumZ (upd k g l) = sumZ l - x + g x.
Proof.
  revert k; induction l; intros [|k]; cbn; intros H; try discriminate.
  - injection H as ->. lia.
  - apply IHl in H. lia.
Qed.

Lemma map_upd {A B} (p : A -> B) (g : B -> B) (f : A -> A) k l :
  (forall x, p (f x) = g (p x)) -> map p (upd k f l) = upd k g (map p l).
Proof.
  intros H. revert k; induction l; intros [|k]; cbn; auto; f_equal; auto.
Qed.

Lemma map_upd_id {A B} (p : A -> B) (f : A -> A) k l :
  (forall x, p (f x) = p x) -> map p (upd k f l) = map p l.
Proof.
  intros H. revert k; induction l; intros [|k]; cbn; auto; f_equal; auto.
Qed.

Lemma upd_nth_error_none {A} k (f : A -> A) l : nth_error l k = None -> upd k f l = l.
Proof.
  revert k; induction l; intros [|k]; cbn; auto; try discriminate.
  intros H; f_equal; auto.
Qed.

Lemma list_ext {A} (l1 l2 : list A) :
  (forall k, nth_error l1 k = nth_error l2 k) -> l1 = l2.
Proof.
  revert l2; induction l1 as [|x l1 IH]; intros [|y l2] H; auto.
  - specialize (H 0%nat); discriminate.
  - specialize (H 0%nat); discriminate.
  - f_equal.
    + specialize (H 0%nat); cbn in H; congruence.
    + apply IH; intros k; exact (H (S k)).
Qed.

(** lexicographic order *)
Lemma lexcmp_refl a : lexcmp a a = Eq.
Proof. induction a; cbn; auto. rewrite Z.compare_refl; auto. Qed.

Lemma lexcmp_eq a b : lexcmp a b = Eq -> a = b.
Proof.
  revert b; induction a; intros [|y b]; cbn; intros H; try discriminate; auto.
  destruct (Z.compare_spec a y); try discriminate.
  subst; f_equal; auto.
Qed.

Lemma lexcmp_antisym a b : lexcmp b a = CompOpp (lexcmp a b).
Proof.
  revert b; induction a; intros [|y b]; cbn; auto.
  rewrite (Z.compare_antisym a y). destruct (a ?= y); cbn; auto.
Qed.

Lemma lexlt_trans a b c : lexlt a b -> lexlt b c -> lexlt a c.
Proof.
  unfold lexlt. revert b c; induction a as [|x a IH]; intros [|y b] [|z c]; cbn;
    intros H1 H2; try discriminate; auto.
  destruct (Z.compare_spec x y); try discriminate;
  destruct (Z.compare_spec y z); try discriminate;
  destruct (Z.compare_spec x z); try lia; auto; try reflexivity.
  eauto.
Qed.

Lemma lexlt_irrefl a : ~ lexlt a a.
Proof. unfold lexlt; rewrite lexcmp_refl; discriminate. Qed.

Lemma insert_u_in x l y : In y (insert_u x l) <-> y = x \/ In y l.
Proof.
  induction l as [|z l IH]; cbn; [intuition|].
  destruct (lexcmp x z) eqn:E; cbn.
  - apply lexcmp_eq in E; subst; intuition; subst; auto.
  - intuition.
  - rewrite IH; intuition.
Qed.

Lemma insert_u_sorted x l : StronglySorted lexlt l -> StronglySorted lexlt (insert_u x l).
Proof.
  induction 1 as [|z l HS IH HF]; cbn.
  - repeat constructor.
  - destruct (lexcmp x z) eqn:E.
    + constructor; auto.
    + constructor. constructor; auto.
      constructor; auto. rewrite Forall_forall in *; intros w Hw.
      eapply lexlt_trans; [exact E|auto].
    + constructor; auto. rewrite Forall_forall in *; intros w Hw.
      apply insert_u_in in Hw as [->|Hw]; auto.
      unfold lexlt. rewrite lexcmp_antisym, E; auto.
Qed.

Lemma np_unique_in l x : In x (np_unique l) <-> In x l.
Proof.
  induction l; cbn; [tauto|]. rewrite insert_u_in, IHl. intuition.
Qed.

Lemma np_unique_sorted l : StronglySorted lexlt (np_unique l).
Proof. induction l; cbn; [constructor|]. apply insert_u_sorted; auto. Qed.

Lemma sorted_lexlt_NoDup l : StronglySorted lexlt l -> NoDup l.
Proof.
  induction 1 as [|x l HS IH HF]; constructor; auto.
  intros Hin. rewrite Forall_forall in HF. exact (lexlt_irrefl _ (HF _ Hin)).
Qed.

Lemma StronglySorted_filter {A} (R : A -> A -> Prop) f l :
  StronglySorted R l -> StronglySorted R (filter f l).
Proof.
  induction 1 as [|x l HS IH HF]; cbn; [constructor|].
  destruct (f x); auto. constructor; auto.
  rewrite Forall_forall in *; intros y Hy; apply filter_In in Hy as [Hy _]; auto.
Qed.

(** A strictly sorted list is determined by its elements. *)
Lemma sorted_unique l1 l2 :
  StronglySorted lexlt l1 -> StronglySorted lexlt l2 ->
  (forall x, In x l1 <-> In x l2) -> l1 = l2.
Proof.
  intros H1; revert l2; induction H1 as [|x l1 HS1 IH HF1]; intros l2 H2 E.
  - destruct l2 as [|y l2]; auto. exfalso; apply (E y); left; auto.
  - destruct H2 as [|y l2 HS2 HF2].
    + exfalso; apply (E x); left; auto.
    + rewrite Forall_forall in HF1, HF2.
      assert (x = y) as <-.
      { destruct (proj1 (E x) (or_introl eq_refl)) as [->|Hx]; auto.
        destruct (proj2 (E y) (or_introl eq_refl)) as [->|Hy]; auto.
        exfalso. apply (lexlt_irrefl x). eapply lexlt_trans; [apply HF1, Hy|apply HF2, Hx]. }
      f_equal. apply IH; auto.
      intros z; split; intros Hz.
      * destruct (proj1 (E z) (or_intror Hz)) as [->|]; auto.
        exfalso; exact (lexlt_irrefl _ (HF1 _ Hz)).
      * destruct (proj2 (E z) (or_intror Hz)) as [->|]; auto.
        exfalso; exact (lexlt_irrefl _ (HF2 _ Hz)).
Qed.

(** integer sort *)
Lemma insert_z_perm x l : Permutation (insert_z x l) (x :: l).
Proof.
  induction l as [|y l IH]; cbn; auto.
  destruct (x <=? y); auto.
  rewrite IH. apply perm_swap.
Qed.

Lemma sort_z_perm l : Permutation (sort_z l) l.
Proof.
  induction l; cbn; auto. rewrite insert_z_perm. auto.
Qed.

Lemma insert_z_sorted x l : StronglySorted Z.le l -> StronglySorted Z.le (insert_z x l).
Proof.
  induction 1 as [|z l HS IH HF]; cbn.
  - repeat constructor.
  - destruct (Z.leb_spec x z).
    + constructor. constructor; auto.
      constructor; auto. rewrite Forall_forall in *. intros w Hw. specialize (HF w Hw). lia.
    + constructor; auto. rewrite Forall_forall in *; intros w Hw.
      apply (Permutation_in _ (insert_z_perm x l)) in Hw. destruct Hw as [->|Hw]; auto. lia.
Qed.

Lemma sort_z_sorted l : StronglySorted Z.le (sort_z l).
Proof. induction l; cbn; [constructor|]. apply insert_z_sorted; auto. Qed.

Lemma Forall2_length {A B} (R : A -> B -> Prop) l1 l2 : Forall2 R l1 l2 -> length l1 = length l2.
Proof. induction 1; cbn; auto. Qed.

Lemma Forall2_nth_error {A B} (R : A -> B -> Prop) l1 l2 :
  Forall2 R l1 l2 <->
  (length l1 = length l2 /\
   forall k a b, nth_error l1 k = Some a -> nth_error l2 k = Some b -> R a b).
Proof.
  split.
  - intros H; split; [eapply Forall2_length; eauto|].
    induction H; intros [|k] a b; cbn; intros Ha Hb; try discriminate.
    + injection Ha as <-; injection Hb as <-; auto.
    + eauto.
  - intros [HL HR]. revert l2 HL HR; induction l1; intros [|y l2] HL HR; cbn in *; try lia; auto.
    constructor.
    + apply (HR 0%nat); auto.
    + apply IHl1; [lia|]. intros k; exact (HR (S k)).
Qed.

Lemma sumZ_nonneg l : Forall (fun x => 0 <= x) l -> 0 <= sumZ l.
Proof. induction 1; cbn in *; lia. Qed.

Lemma max_list_ge l x : In x l -> x <= max_list l.
Proof.
  induction l; cbn; [tauto|]. intros [->|H]; [|apply IHl in H]; lia.
Qed.

Lemma max_list_nonneg l : 0 <= max_list l.
Proof. induction l; cbn; lia. Qed.

Lemma max_list_le_sum l : Forall (fun x => 0 <= x) l -> max_list l <= sumZ l.
Proof.
  induction 1; cbn; [lia|].
  pose proof (max_list_nonneg l). lia.
Qed.

Lemma Forall2_impl {A B} (R R' : A -> B -> Prop) l1 l2 :
  (forall a b, R a b -> R' a b) -> Forall2 R l1 l2 -> Forall2 R' l1 l2.
Proof. intros H; induction 1; constructor; auto. Qed.

Lemma NoDup_app_inv {A} (l1 l2 : list A) : NoDup (l1 ++ l2) ->
  NoDup l1 /\ NoDup l2 /\ (forall x, In x l1 -> ~ In x l2).
Proof.
  induction l1 as [|a l1 IH]; cbn; intros H.
  - repeat split; auto. constructor.
  - inversion H as [|? ? Hni Hnd]; subst. destruct (IH Hnd) as (A1 & A2 & A3).
    split; [constructor; auto; intros Hc; apply Hni, in_or_app; auto|split; [auto|]].
    intros x [<-|Hx]; auto. intros Hc; apply Hni, in_or_app; auto.
Qed.

Lemma NoDup_app_intro {A} (l1 l2 : list A) : NoDup l1 -> NoDup l2 ->
  (forall x, In x l1 -> ~ In x l2) -> NoDup (l1 ++ l2).
Proof.
  induction 1 as [|x l1 Hx H IH]; intros H2 Hd; cbn; auto. constructor.
  - rewrite in_app_iff. intros [Hc|Hc]; auto. apply (Hd x); cbn; auto.
  - apply IH; auto. intros y Hy; apply Hd; right; auto.
Qed.

Lemma nth_error_firstn {A} (l : list A) : forall n k,
  nth_error (firstn n l) k = if (k <? n)%nat then nth_error l k else None.
Proof.
  induction l as [|x l IH]; intros n k.
  - rewrite firstn_nil. destruct k, (_ <? n)%nat; auto.
  - destruct n as [|n]; [destruct k; auto|]. destruct k as [|k]; auto. cbn [firstn nth_error]. rewrite IH. auto.
Qed.

Lemma nth_error_Some_lt {A} (l : list A) k x : nth_error l k = Some x -> (k < length l)%nat.
Proof. intros H. apply nth_error_Some. congruence. Qed.
