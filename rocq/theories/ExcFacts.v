(** Lemmas for the interaction tables. *)
From Coq Require Import List ZArith Bool Arith Lia Permutation Sorted.
From Verif Require Import Base BaseFacts ExcModel ExcSpec.
Import ListNotations.
Local Open Scope Z_scope.

(** * Sorting *)
Lemma ins_by_perm k x l : Permutation (ins_by k x l) (x :: l).
Proof. induction l as [|y l IH]; cbn; [reflexivity|]. destruct (k x <=? k y); [reflexivity|]. rewrite IH. constructor. Qed.
Lemma argsort_perm k n : Permutation (argsort k n) (seq 0 n).
Proof. unfold argsort. induction (seq 0 n) as [|x l IH]; cbn; [constructor|]. rewrite ins_by_perm. now constructor. Qed.
Definition before (k : nat -> Z) (x y : nat) : Prop := k x < k y \/ (k x = k y /\ (x < y)%nat).
Lemma before_trans k x y z : before k x y -> before k y z -> before k x z.
Proof. unfold before. intros [?|[? ?]] [?|[? ?]]; [left|left|left|right]; lia. Qed.
Lemma seq_sorted n : forall s, StronglySorted lt (seq s n).
Proof. induction n as [|n IH]; intros s; [constructor|]. cbn. constructor; [apply IH|]. apply Forall_forall. intros x Hx. apply in_seq in Hx. lia. Qed.
Lemma filter_sorted {R : nat -> nat -> Prop} P l : StronglySorted R l -> StronglySorted R (filter P l).
Proof.
  induction 1 as [|x l H1 IH H2]; [constructor|]. cbn. destruct (P x); [|exact IH]. constructor; [exact IH|].
  rewrite Forall_forall in *. intros y Hy. apply H2. now apply filter_In in Hy.
Qed.
Lemma argsort_sorted k n : StronglySorted (before k) (argsort k n).
Proof.
  unfold argsort. pose proof (seq_sorted n 0) as H.
  induction H as [|x l H1 IH H2]; [constructor|]. cbn [fold_right].
  assert (P : forall y, In y (fold_right (ins_by k) [] l) <-> In y l).
  { intros y. clear. induction l as [|x l IH]; [reflexivity|]. cbn. split; intros H.
    - apply (Permutation_in _ (ins_by_perm k x _)) in H. cbn in H. rewrite IH in H. exact H.
    - apply (Permutation_in _ (Permutation_sym (ins_by_perm k x _))). cbn. now rewrite IH. }
  assert (H3 : forall y, In y (fold_right (ins_by k) [] l) -> (x < y)%nat). { intros y Hy. apply P in Hy. rewrite Forall_forall in H2. now apply H2. }
  clear H1 H2 P. revert IH H3. generalize (fold_right (ins_by k) [] l) as m. clear l.
  induction 1 as [|y m Hs IHs Hf]; intros H3; [repeat constructor|]. cbn. destruct (Z.leb_spec (k x) (k y)).
  - constructor; [now constructor|]. assert (B : before k x y). { unfold before. specialize (H3 y (or_introl eq_refl)). lia. }
    constructor; [exact B|]. rewrite Forall_forall in *. intros z Hz. eapply before_trans; [exact B | now apply Hf].
  - constructor; [apply IHs; intros z Hz; apply H3; now right|]. rewrite Forall_forall in *. intros z Hz.
    apply (Permutation_in _ (ins_by_perm k x m)) in Hz as [<-|Hz]; [now left | now apply Hf].
Qed.
Lemma sorted_head {R : nat -> nat -> Prop} l x l' : (forall a b, R a b -> R b a -> False) ->
  StronglySorted R l -> Permutation l (x :: l') -> (forall y, In y l' -> R x y) -> exists l'', l = x :: l'' /\ Permutation l'' l' /\ StronglySorted R l''.
Proof.
  intros As S P H. destruct l as [|y l]; [now apply Permutation_nil_cons in P|]. inversion S as [|? ? S1 S2]; subst.
  assert (E : y = x). { assert (Hy : In y (x :: l')) by (apply (Permutation_in _ P); now left). destruct Hy as [->|Hy]; [reflexivity|].
    assert (Hx : In x (y :: l)) by (apply (Permutation_in _ (Permutation_sym P)); now left). destruct Hx as [Hx|Hx]; [exact Hx|].
    rewrite Forall_forall in S2. exfalso. exact (As _ _ (H _ Hy) (S2 _ Hx)). }
  subst y. exists l. split; [reflexivity|]. split; [now apply Permutation_cons_inv in P | exact S1].
Qed.
Lemma before_asym k a b : before k a b -> before k b a -> False.
Proof. unfold before. lia. Qed.

(** * Support of a hop *)
Definition hsupp := list (nat * (Z * Z)).
Fixpoint lookup (f : nat) (sp : hsupp) : Z * Z := match sp with [] => (0, 0) | (p, v) :: sp => if (f =? p)%nat then v else lookup f sp end.
Record supp (h : hop) (S : hsupp) : Prop := mkSupp {
  supp_nd : NoDup (map fst S); supp_lt : Forall (fun p => (fst p < length h)%nat) S;
  supp_at : forall f, (f < length h)%nat -> hop_at h f = lookup f S }.
Lemma lookup_in f v S : NoDup (map fst S) -> In (f, v) S -> lookup f S = v.
Proof.
  induction S as [|[p w] S IH]; [easy|]. cbn. intros H. inversion H; subst. intros [E|Hi].
  - injection E as -> ->. now rewrite Nat.eqb_refl.
  - destruct (Nat.eqb_spec f p) as [->|]; [|now apply IH]. exfalso. apply H2. now apply (in_map fst) in Hi.
Qed.
Lemma lookup_out f S : ~ In f (map fst S) -> lookup f S = (0, 0).
Proof. induction S as [|[p w] S IH]; [reflexivity|]. cbn. intros H. destruct (Nat.eqb_spec f p); [subst; tauto|]. apply IH. tauto. Qed.
Lemma hop_map {X} (g : Z * Z -> X) h : map g h = map (fun f => g (hop_at h f)) (seq 0 (length h)).
Proof.
  apply (list_ext (map g h)). intros k. rewrite !nth_error_map. destruct (Nat.lt_ge_cases k (length h)) as [L|L].
  - assert (E : nth_error (seq 0 (length h)) k = Some k).
    { rewrite (nth_error_nth' _ 0%nat) by now rewrite seq_length. now rewrite seq_nth. }
    rewrite E. cbn. rewrite (nth_error_nth' h (0, 0) L). reflexivity.
  - rewrite (proj2 (nth_error_None h k)) by lia. rewrite (proj2 (nth_error_None (seq 0 (length h)) k)) by (rewrite seq_length; lia). reflexivity.
Qed.
(** the fragments: those of the support and the rest, where nothing changes *)
Lemma supp_frags h S : supp h S -> exists rest, Permutation (seq 0 (length h)) (map fst S ++ rest)
  /\ (forall f, In f rest -> hop_at h f = (0, 0) /\ (f < length h)%nat /\ ~ In f (map fst S)) /\ StronglySorted lt rest.
Proof.
  intros [Hn Hl Ha]. exists (filter (fun f => negb (existsb (Nat.eqb f) (map fst S))) (seq 0 (length h))). split; [|split].
  - apply NoDup_Permutation; [apply seq_NoDup| |].
    + apply NoDup_app_intro; [exact Hn | apply NoDup_filter, seq_NoDup|]. intros x Hx Hy. apply filter_In in Hy as [_ Hy].
      apply negb_true_iff in Hy. rewrite (proj2 (existsb_exists _ _)) in Hy; [discriminate|]. exists x. split; [exact Hx | apply Nat.eqb_refl].
    + intros x. rewrite in_app_iff, filter_In, in_seq. split.
      * intros Hx. destruct (existsb (Nat.eqb x) (map fst S)) eqn:E; [left | right; cbn; split; [lia | reflexivity]].
        apply existsb_exists in E as (y & Hy & E). apply Nat.eqb_eq in E. now subst.
      * intros [Hx|[Hx _]]; [|lia]. apply in_map_iff in Hx as ([p v] & <- & Hp). rewrite Forall_forall in Hl. specialize (Hl _ Hp). cbn in *. lia.
  - intros f Hf. apply filter_In in Hf as [Hf Hb]. apply in_seq in Hf. apply negb_true_iff in Hb.
    assert (N : ~ In f (map fst S)). { intros C. rewrite (proj2 (existsb_exists _ _)) in Hb; [discriminate|]. exists f. split; [exact C | apply Nat.eqb_refl]. }
    split; [rewrite Ha by lia; now apply lookup_out|]. split; [lia | exact N].
  - apply filter_sorted, seq_sorted.
Qed.
Lemma supp_vals h S : supp h S -> map (fun f => hop_at h f) (map fst S) = map snd S.
Proof.
  intros H. rewrite map_map. apply map_ext_in. intros [f v] Hf. cbn. rewrite (supp_at _ _ H).
  - apply lookup_in; [apply H | exact Hf].
  - pose proof (supp_lt _ _ H) as L. rewrite Forall_forall in L. exact (L _ Hf).
Qed.
Lemma supp_perm h S : supp h S -> exists rest, Permutation h (map snd S ++ rest) /\ Forall (fun v => v = (0, 0)) rest /\ length h = (length S + length rest)%nat.
Proof.
  intros H. destruct (supp_frags h S H) as (rest & P & Hr & _). exists (map (hop_at h) rest). split; [|split].
  - rewrite <- (supp_vals h S H). rewrite <- map_app. rewrite <- (map_id h) at 1. rewrite (hop_map (fun x => x) h). now apply Permutation_map.
  - apply Forall_forall. intros v Hv. apply in_map_iff in Hv as (f & <- & Hf). now apply Hr.
  - apply Permutation_length in P. rewrite seq_length, app_length, map_length in P. rewrite map_length. lia.
Qed.
Lemma sumZ_perm l l' : Permutation l l' -> sumZ l = sumZ l'.
Proof. induction 1; cbn; lia. Qed.
Lemma supp_sum g h S : supp h S -> g (0, 0) = 0 -> sumZ (map g h) = sumZ (map g (map snd S)).
Proof.
  intros H G. destruct (supp_perm h S H) as (rest & P & R & _). rewrite (sumZ_perm _ _ (Permutation_map g P)), map_app, sumZ_app.
  assert (E : sumZ (map g rest) = 0). { clear -R G. induction R as [|v l -> _ IH]; [reflexivity|]. cbn. lia. } lia.
Qed.
Lemma length_filter_perm {X} (P : X -> bool) l l' : Permutation l l' -> length (filter P l) = length (filter P l').
Proof. induction 1; cbn; repeat (destruct (P _); cbn); lia. Qed.
Lemma supp_count g h S : supp h S -> g (0, 0) = 0 -> count_nz g h = count_nz g (map snd S).
Proof.
  intros H G. destruct (supp_perm h S H) as (rest & P & R & _). unfold count_nz. rewrite (length_filter_perm _ _ _ P), filter_app, app_length.
  assert (E : filter (fun p => negb (g p =? 0)) rest = []). { clear -R G. induction R as [|v l -> _ IH]; [reflexivity|]. cbn. now rewrite G. }
  rewrite E. cbn. lia.
Qed.
Lemma fold_min l : forall x, (forall y, In y (x :: l) -> fold_left Z.min l x <= y) /\ In (fold_left Z.min l x) (x :: l).
Proof.
  induction l as [|z l IH]; intros x; cbn [fold_left]; [split; [intros y [->|[]]; lia | now left]|]. destruct (IH (Z.min x z)) as [H1 H2]. split.
  - intros y [->|[->|Hy]]; [| |apply H1; now right]; specialize (H1 _ (or_introl eq_refl)); lia.
  - destruct H2 as [H2|H2]; [|right; now right]. rewrite <- H2. destruct (Z.min_spec x z) as [[_ E]|[_ E]]; rewrite E; cbn; auto.
Qed.
Lemma fold_max l : forall x, (forall y, In y (x :: l) -> y <= fold_left Z.max l x) /\ In (fold_left Z.max l x) (x :: l).
Proof.
  induction l as [|z l IH]; intros x; cbn [fold_left]; [split; [intros y [->|[]]; lia | now left]|]. destruct (IH (Z.max x z)) as [H1 H2]. split.
  - intros y [->|[->|Hy]]; [| |apply H1; now right]; specialize (H1 _ (or_introl eq_refl)); lia.
  - destruct H2 as [H2|H2]; [|right; now right]. rewrite <- H2. destruct (Z.max_spec x z) as [[_ E]|[_ E]]; rewrite E; cbn; auto.
Qed.
Definition has_min (g : Z * Z -> Z) (m : Z) (l : hop) : bool := existsb (fun v => g v =? m) l && forallb (fun v => m <=? g v) l.
Definition has_max (g : Z * Z -> Z) (m : Z) (l : hop) : bool := existsb (fun v => g v =? m) l && forallb (fun v => g v <=? m) l.
Lemma supp_amin g h S m : supp h S -> g (0, 0) = 0 -> m < 0 -> (amin g h =? m) = has_min g m (map snd S).
Proof.
  intros H G M. destruct (supp_perm h S H) as (rest & P & R & _). pose proof (Permutation_map g P) as Q. rewrite map_app in Q. unfold amin.
  apply eq_true_iff_eq. unfold has_min. rewrite andb_true_iff, existsb_exists, forallb_forall, Z.eqb_eq.
  assert (R0 : forall y, In y (map g rest) -> y = 0). { intros y Hy. apply in_map_iff in Hy as (v & <- & Hv). rewrite Forall_forall in R. now rewrite (R _ Hv). }
  destruct (map g h) as [|x l] eqn:E.
  - apply Permutation_nil in Q. apply app_eq_nil in Q as [Q _]. apply map_eq_nil in Q. rewrite Q. split; [lia|]. intros [(v & [] & _) _].
  - destruct (fold_min l x) as [H1 H2]. split.
    + intros Em. rewrite Em in *. split.
      * assert (I : In m (map g (map snd S) ++ map g rest)) by (eapply Permutation_in; [exact Q | exact H2]). apply in_app_or in I as [I|I]; [|apply R0 in I; lia].
        apply in_map_iff in I as (v & <- & Hv). exists v. split; [exact Hv | apply Z.eqb_refl].
      * intros v Hv. apply Z.leb_le, H1. eapply Permutation_in; [symmetry; exact Q|]. apply in_or_app. left. now apply in_map.
    + intros [(v & Hv & Ev) Hall]. apply Z.eqb_eq in Ev.
      assert (L1 : fold_left Z.min l x <= m). { rewrite <- Ev. apply H1. eapply Permutation_in; [symmetry; exact Q|]. apply in_or_app. left. now apply in_map. }
      assert (L2 : m <= fold_left Z.min l x).
      { assert (I : In (fold_left Z.min l x) (map g (map snd S) ++ map g rest)) by (eapply Permutation_in; [exact Q | exact H2]).
        apply in_app_or in I as [I|I]; [|apply R0 in I; lia]. apply in_map_iff in I as (w & Ew & Hw). rewrite <- Ew. apply Z.leb_le. now apply Hall. }
      lia.
Qed.
Lemma supp_amax g h S m : supp h S -> g (0, 0) = 0 -> 0 < m -> (amax g h =? m) = has_max g m (map snd S).
Proof.
  intros H G M. destruct (supp_perm h S H) as (rest & P & R & _). pose proof (Permutation_map g P) as Q. rewrite map_app in Q. unfold amax.
  apply eq_true_iff_eq. unfold has_max. rewrite andb_true_iff, existsb_exists, forallb_forall, Z.eqb_eq.
  assert (R0 : forall y, In y (map g rest) -> y = 0). { intros y Hy. apply in_map_iff in Hy as (v & <- & Hv). rewrite Forall_forall in R. now rewrite (R _ Hv). }
  destruct (map g h) as [|x l] eqn:E.
  - apply Permutation_nil in Q. apply app_eq_nil in Q as [Q _]. apply map_eq_nil in Q. rewrite Q. split; [lia|]. intros [(v & [] & _) _].
  - destruct (fold_max l x) as [H1 H2]. split.
    + intros Em. rewrite Em in *. split.
      * assert (I : In m (map g (map snd S) ++ map g rest)) by (eapply Permutation_in; [exact Q | exact H2]). apply in_app_or in I as [I|I]; [|apply R0 in I; lia].
        apply in_map_iff in I as (v & <- & Hv). exists v. split; [exact Hv | apply Z.eqb_refl].
      * intros v Hv. apply Z.leb_le, H1. eapply Permutation_in; [symmetry; exact Q|]. apply in_or_app. left. now apply in_map.
    + intros [(v & Hv & Ev) Hall]. apply Z.eqb_eq in Ev.
      assert (L1 : m <= fold_left Z.max l x). { rewrite <- Ev. apply H1. eapply Permutation_in; [symmetry; exact Q|]. apply in_or_app. left. now apply in_map. }
      assert (L2 : fold_left Z.max l x <= m).
      { assert (I : In (fold_left Z.max l x) (map g (map snd S) ++ map g rest)) by (eapply Permutation_in; [exact Q | exact H2]).
        apply in_app_or in I as [I|I]; [|apply R0 in I; lia]. apply in_map_iff in I as (w & Ew & Hw). rewrite <- Ew. apply Z.leb_le. now apply Hall. }
      lia.
Qed.

(** The sorted fragments: losses, spectators, gains *)
Lemma sorted_eq {R : nat -> nat -> Prop} : (forall a b, R a b -> R b a -> False) -> forall l' l, StronglySorted R l -> StronglySorted R l' -> Permutation l l' -> l = l'.
Proof.
  intros As. induction l' as [|x l' IH]; intros l H H' P; [symmetry in P; now apply Permutation_nil in P|].
  inversion H' as [|? ? S1 S2]; subst. rewrite Forall_forall in S2. destruct (sorted_head l x l' As H P S2) as (l'' & -> & P' & S'). f_equal. now apply IH.
Qed.
Lemma ssorted_app {R : nat -> nat -> Prop} l l' : StronglySorted R l -> StronglySorted R l' -> (forall x y, In x l -> In y l' -> R x y) -> StronglySorted R (l ++ l').
Proof.
  induction 1 as [|x l H1 IH H2]; intros S' H; [exact S'|]. cbn. constructor; [apply IH; [exact S'|]; intros; apply H; [now right | assumption]|].
  rewrite Forall_forall in *. intros y Hy. apply in_app_or in Hy as [Hy|Hy]; [now apply H2 | apply H; [now left | exact Hy]].
Qed.
Definition before2 (x y : nat * (Z * Z)) : Prop := sort_key (snd x) < sort_key (snd y) \/ (sort_key (snd x) = sort_key (snd y) /\ (fst x < fst y)%nat).
Lemma findf_eq h S1 S2 : supp h (S1 ++ S2) -> Forall (fun p => sort_key (snd p) < 0) S1 -> Forall (fun p => 0 < sort_key (snd p)) S2 ->
  StronglySorted before2 S1 -> StronglySorted before2 S2 -> exists rest, findf h = map fst S1 ++ rest ++ map fst S2.
Proof.
  intros Hs N1 N2 Q1 Q2. destruct (supp_frags _ _ Hs) as (rest & P & Hr & Sr). exists rest. set (k := fun f => sort_key (hop_at h f)).
  assert (K : forall f v, In (f, v) (S1 ++ S2) -> k f = sort_key v).
  { intros f v Hf. unfold k. rewrite (supp_at _ _ Hs).
    - now rewrite (lookup_in f v _ (supp_nd _ _ Hs) Hf).
    - pose proof (supp_lt _ _ Hs) as L. rewrite Forall_forall in L. exact (L _ Hf). }
  assert (KS : forall T, incl T (S1 ++ S2) -> StronglySorted before2 T -> StronglySorted (before k) (map fst T)).
  { intros T I. induction 1 as [|[x v] T H1 IH H2]; [constructor|]. cbn. constructor; [apply IH; intros z Hz; apply I; now right|].
    apply Forall_forall. intros y Hy. apply in_map_iff in Hy as ([y' w] & <- & Hy). rewrite Forall_forall in H2. specialize (H2 _ Hy). unfold before. cbn [fst].
    rewrite (K x v), (K y' w); [exact H2 | apply I; now right | apply I; now left]. }
  rewrite Forall_forall in N1, N2.
  assert (K1 : forall x, In x (map fst S1) -> k x < 0). { intros x Hx. apply in_map_iff in Hx as ([x' v] & <- & Hx). cbn. rewrite (K x' v) by (apply in_or_app; now left). exact (N1 _ Hx). }
  assert (K2 : forall x, In x (map fst S2) -> 0 < k x). { intros x Hx. apply in_map_iff in Hx as ([x' v] & <- & Hx). cbn. rewrite (K x' v) by (apply in_or_app; now right). exact (N2 _ Hx). }
  assert (K0 : forall x, In x rest -> k x = 0). { intros x Hx. unfold k. destruct (Hr _ Hx) as (-> & _). reflexivity. }
  apply (sorted_eq (before_asym k)).
  - apply argsort_sorted.
  - apply ssorted_app; [apply KS; [apply incl_appl, incl_refl | exact Q1]| |].
    + apply ssorted_app; [| apply KS; [apply incl_appr, incl_refl | exact Q2] |].
      * clear -Sr K0. induction Sr as [|x l H1 IH H2]; [constructor|]. constructor; [apply IH; intros; apply K0; now right|].
        rewrite Forall_forall in *. intros y Hy. right. rewrite !K0; [|now right | now left]. split; [reflexivity | now apply H2].
      * intros x y Hx Hy. left. rewrite (K0 _ Hx). now apply K2.
    + intros x y Hx Hy. left. apply in_app_or in Hy as [Hy|Hy]; specialize (K1 _ Hx); [rewrite (K0 _ Hy); lia | specialize (K2 _ Hy); lia].
  - unfold findf. rewrite argsort_perm, P, map_app, <- app_assoc. apply Permutation_app_head, Permutation_app_comm.
Qed.

(** * Decomposition of an array of integers with zero sum *)
Definition dl (i f : nat) : Z := if (f =? i)%nat then 1 else 0.
Definition sumn (n : nat) (a : nat -> Z) : Z := sumZ (map a (seq 0 n)).
Lemma sumn_ext n a b : (forall f, (f < n)%nat -> a f = b f) -> sumn n a = sumn n b.
Proof. intros H. unfold sumn. f_equal. apply map_ext_in. intros f Hf. apply in_seq in Hf. apply H. lia. Qed.
Lemma sumZ_add {X} (a b : X -> Z) l : sumZ (map (fun f => a f + b f) l) = sumZ (map a l) + sumZ (map b l).
Proof. induction l; cbn; lia. Qed.
Lemma sumn_add n a b : sumn n (fun f => a f + b f) = sumn n a + sumn n b.
Proof. apply sumZ_add. Qed.
Lemma sumn_opp n a : sumn n (fun f => - a f) = - sumn n a.
Proof. unfold sumn. induction (seq 0 n); cbn; lia. Qed.
Lemma sumn_dl n i : (i < n)%nat -> sumn n (dl i) = 1.
Proof.
  unfold sumn. intros H. assert (G : forall m s, (s <= i < s + m)%nat -> sumZ (map (dl i) (seq s m)) = 1).
  { assert (Z0 : forall m s, (i < s)%nat -> sumZ (map (dl i) (seq s m)) = 0).
    { induction m as [|m IH]; intros s Hs; [reflexivity|]. cbn. rewrite IH by lia. unfold dl. destruct (Nat.eqb_spec s i); lia. }
    induction m as [|m IH]; intros s Hs; [lia|]. cbn. unfold dl at 1. destruct (Nat.eqb_spec s i); [rewrite Z0 by lia; reflexivity | rewrite IH by lia; reflexivity]. }
  apply G. lia.
Qed.
Lemma sumn_nonneg n a : (forall f, 0 <= a f) -> 0 <= sumn n a.
Proof. intros H. unfold sumn. induction (seq 0 n) as [|x l IH]; cbn; [lia|]. specialize (H x). lia. Qed.
Lemma abs_zero n a : sumn n (fun f => Z.abs (a f)) = 0 -> forall f, (f < n)%nat -> a f = 0.
Proof.
  unfold sumn. intros H f Hf. assert (I : In f (seq 0 n)) by (apply in_seq; lia). revert H I. clear Hf. induction (seq 0 n) as [|x l IH]; [easy|]. cbn.
  assert (0 <= sumZ (map (fun f => Z.abs (a f)) l)) by (clear; induction l; cbn; lia). intros H1 [->|I]; [lia | apply IH; [lia | exact I]].
Qed.
Lemma pick n a : sumn n a = 0 -> 0 < sumn n (fun f => Z.abs (a f)) -> exists i j, (i < n)%nat /\ (j < n)%nat /\ 0 < a i /\ a j < 0.
Proof.
  unfold sumn. intros H P.
  assert (G : forall l, (exists i, In i l /\ 0 < a i) \/ sumZ (map (fun f => Z.abs (a f)) l) = - sumZ (map a l)).
  { induction l as [|x l [(i & Hi & Pi)|IH]]; [now right | left; exists i; split; [now right | exact Pi]|]. cbn. destruct (Z.lt_ge_cases 0 (a x)); [left; exists x; split; [now left | lia] | right; lia]. }
  assert (G' : forall l, (exists i, In i l /\ a i < 0) \/ sumZ (map (fun f => Z.abs (a f)) l) = sumZ (map a l)).
  { induction l as [|x l [(i & Hi & Pi)|IH]]; [now right | left; exists i; split; [now right | exact Pi]|]. cbn. destruct (Z.lt_ge_cases (a x) 0); [left; exists x; split; [now left | lia] | right; lia]. }
  destruct (G (seq 0 n)) as [(i & Hi & Pi)|E]; [|lia]. destruct (G' (seq 0 n)) as [(j & Hj & Pj)|E]; [|lia].
  apply in_seq in Hi, Hj. exists i, j. repeat split; lia.
Qed.
Lemma pick_step n a : sumn n a = 0 -> 0 < sumn n (fun f => Z.abs (a f)) -> exists i j, (i < n)%nat /\ (j < n)%nat /\ 0 < a i /\ a j < 0
  /\ sumn n (fun f => a f - dl i f + dl j f) = 0 /\ sumn n (fun f => Z.abs (a f - dl i f + dl j f)) = sumn n (fun f => Z.abs (a f)) - 2.
Proof.
  intros H P. destruct (pick n a H P) as (i & j & Hi & Hj & Pi & Pj). exists i, j. refine (conj Hi (conj Hj (conj Pi (conj Pj (conj _ _))))).
  - rewrite (sumn_ext n _ (fun f => (a f + - dl i f) + dl j f)) by (intros; lia). rewrite !sumn_add, sumn_opp, !sumn_dl by assumption. lia.
  - rewrite (sumn_ext n _ (fun f => (Z.abs (a f) + - dl i f) + - dl j f)).
    + rewrite !sumn_add, !sumn_opp, !sumn_dl by assumption. lia.
    + intros f _. unfold dl. destruct (Nat.eqb_spec f i), (Nat.eqb_spec f j); subst; lia.
Qed.
Definition is_1 (n : nat) (a : nat -> Z) : Prop := exists i j, (i < n)%nat /\ (j < n)%nat /\ i <> j /\ forall f, (f < n)%nat -> a f = dl i f - dl j f.
Definition is_2 (n : nat) (a : nat -> Z) : Prop := exists i j k l, (i < n)%nat /\ (j < n)%nat /\ (k < n)%nat /\ (l < n)%nat /\
  i <> j /\ k <> j /\ i <> l /\ k <> l /\ forall f, (f < n)%nat -> a f = dl i f + dl k f - dl j f - dl l f.
Lemma decompose n a : sumn n a = 0 -> let m := sumn n (fun f => Z.abs (a f)) in m <= 4 ->
  (m = 0 /\ forall f, (f < n)%nat -> a f = 0) \/ (m = 2 /\ is_1 n a) \/ (m = 4 /\ is_2 n a).
Proof.
  intros H m. subst m. intros M. pose proof (sumn_nonneg n (fun f => Z.abs (a f)) (fun f => Z.abs_nonneg _)) as P0.
  destruct (Z.eq_dec (sumn n (fun f => Z.abs (a f))) 0) as [E|E]; [left; split; [exact E | now apply abs_zero]|].
  destruct (pick_step n a H ltac:(lia)) as (i & j & Hi & Hj & Pi & Pj & H1 & H2).
  pose proof (sumn_nonneg n (fun f => Z.abs (a f - dl i f + dl j f)) (fun f => Z.abs_nonneg _)) as P1.
  assert (Nij : i <> j) by (intros ->; lia).
  destruct (Z.eq_dec (sumn n (fun f => Z.abs (a f - dl i f + dl j f))) 0) as [E1|E1].
  { right. left. split; [lia|]. exists i, j. refine (conj Hi (conj Hj (conj Nij _))). intros f Hf. pose proof (abs_zero n _ E1 f Hf). lia. }
  destruct (pick_step n _ H1 ltac:(lia)) as (k & l & Hk & Hl & Pk & Pl & H3 & H4).
  pose proof (sumn_nonneg n (fun f => Z.abs (a f - dl i f + dl j f - dl k f + dl l f)) (fun f => Z.abs_nonneg _)) as P2.
  right. right. split; [lia|]. assert (E2 : sumn n (fun f => Z.abs (a f - dl i f + dl j f - dl k f + dl l f)) = 0) by lia.
  exists i, j, k, l. refine (conj Hi (conj Hj (conj Hk (conj Hl (conj Nij (conj _ (conj _ (conj _ _)))))))).
  - intros ->. unfold dl in Pk. rewrite Nat.eqb_refl in Pk. destruct (Nat.eqb_spec j i); lia.
  - intros ->. unfold dl in Pl. rewrite Nat.eqb_refl in Pl. destruct (Nat.eqb_spec l j); lia.
  - intros ->. lia.
  - intros f Hf. pose proof (abs_zero n _ E2 f Hf). lia.
Qed.
