(** Properties C25-C28: the asynchronous LASSCF driver. *)
From Coq Require Import List ZArith QArith Arith Lia Sorting.Permutation.
From Verif Require Import Base AsyncModel AsyncSpec AsyncFacts.
Import ListNotations.
Local Close Scope Q_scope.
Local Open Scope nat_scope.

(** ** C25 the tournament *)

(** Whatever the combination step does, a result is obtained by a bracketing in which every impurity
    keyframe occurs exactly once. *)
Theorem C25_each_once {A} (comb : A -> A -> res A) l x : tournament comb l = Ok x ->
  exists t, evaluates comb l t x /\ Permutation (leaves t) (seq 0 (length l)).
Proof. exact (tournament_tree comb l x). Qed.
Print Assumptions C25_each_once.

(** If the combination step succeeds, so does the tournament: the number of rounds always suffices. *)
Theorem C25_one_left {A} (comb : A -> A -> res A) l : l <> [] ->
  (forall a b, exists c, comb a b = Ok c) -> exists x, tournament comb l = Ok x.
Proof.
  intros Hl Hc. destruct (tournament_inv comb (fun _ => True)) with (l := l) as (x & E & _); auto.
  - intros l0 _ _. assert (T : exists c, comb_pairs comb l0 = Ok c).
    { induction l0 as [|a|a b r IH] using two_ind; cbn; eauto.
      destruct (Hc a b) as [c ->]. destruct IH as [cs ->]. cbn; eauto. }
    destruct T as [c E]. destruct (round_total comb l0 c E) as [l' R]; eauto.
  - eauto.
Qed.
Print Assumptions C25_one_left.

(** In the driver the combination never refuses: the keyframes met claim disjoint fragments. *)
Theorem C25_never_raises {V} gmax order : selection gmax order ->
  forall limit nfrags (ref new : nat -> V), 1 <= nfrags ->
  exists k, macrocycle gmax order limit nfrags ref new = Ok k.
Proof. intros S limit n ref new Hn. destruct (macrocycle_total gmax order S ref new limit n Hn) as (k & E & _); eauto. Qed.
Print Assumptions C25_never_raises.

(** The bracketings for three and five impurities; no impurity at all is an error. *)
Example C25_example :
  tournament (fun a b => Ok (Node a b)) (map Leaf (seq 0 3)) = Ok (Node (Leaf 2) (Node (Leaf 0) (Leaf 1))) /\
  tournament (fun a b => Ok (Node a b)) (map Leaf (seq 0 5))
  = Ok (Node (Node (Leaf 2) (Leaf 3)) (Node (Node (Leaf 0) (Leaf 1)) (Leaf 4))) /\
  tournament (fun a b => Ok (Node a b)) [] = Raise OverflowError.
Proof. repeat split. Qed.

(** ** C26 no impurity result is forgotten *)

(** With a limit of at least the number of fragments (the default) all fragments stay marked. *)
Theorem C26_all_marked_partial {V} gmax order : selection gmax order ->
  forall limit nfrags (ref new : nat -> V), 1 <= nfrags -> nfrags <= limit ->
  exists k, macrocycle gmax order limit nfrags ref new = Ok k /\ Permutation (kf_frags k) (seq 0 nfrags).
Proof. intros S limit n ref new. exact (macrocycle_marks gmax order S ref new limit n). Qed.
Print Assumptions C26_all_marked_partial.

(** Already with a limit of one less, every fragment ends with the data of its own impurity problem. *)
Theorem C26_all_kept_partial {V} gmax order : selection gmax order ->
  forall limit nfrags (ref new : nat -> V), 1 <= nfrags -> nfrags - 1 <= limit ->
  exists k, macrocycle gmax order limit nfrags ref new = Ok k /\ forall f, f < nfrags -> kf_val k f = new f.
Proof. intros S limit n ref new. exact (macrocycle_keeps gmax order S ref new limit n). Qed.
Print Assumptions C26_all_kept_partial.

(** Whatever the limit, what is marked is kept. *)
Theorem C26_marked_kept_partial {V} gmax order : selection gmax order ->
  forall limit nfrags (ref new : nat -> V), 1 <= nfrags ->
  exists k, macrocycle gmax order limit nfrags ref new = Ok k /\
    (forall f, In f (kf_frags k) -> f < nfrags /\ kf_val k f = new f) /\ NoDup (kf_frags k).
Proof. intros S limit n ref new. exact (macrocycle_total gmax order S ref new limit n). Qed.
Print Assumptions C26_marked_kept_partial.

(** With five fragments and combine_pair_max_frags = 2 a fragment can fall back to the orbitals and
    CI vectors of the previous macrocycle. *)
Theorem C26_refuted : exists gmax order, selection gmax order /\
  exists limit nfrags f, f < nfrags /\
  exists k, macrocycle gmax order limit nfrags (fun _ => false) (fun _ => true) = Ok k /\ kf_val k f = false.
Proof.
  exists (fun _ _ => 0), (fun l => l). split.
  { split; auto. intros f1 f2 H1 H2. destruct f1, f2; cbn; try congruence; lia. }
  exists 2, 5, 1. split; [lia|]. eexists. split; reflexivity.
Qed.
Print Assumptions C26_refuted.

(** the same with the mark lost only: three fragments *)
Example C26_example :
  match macrocycle (fun _ _ => 0) (fun l => l) 2 3 (fun _ => false) (fun _ => true) with
  | Ok k => kf_frags k = [2; 0] /\ map (kf_val k) [0; 1; 2] = [true; true; true]
  | Raise _ => False
  end.
Proof. vm_compute. auto. Qed.

(** ** C27 averaged density *)
Local Open Scope Q_scope.
Lemma sumQ_acc l : forall a, fold_left Qplus l a == a + fold_right Qplus 0 l.
Proof. induction l as [|x l IH]; intros a; cbn [fold_left fold_right]; [ring|]. rewrite IH. ring. Qed.
Lemma sumQ_right l : sumQ l == fold_right Qplus 0 l.
Proof. unfold sumQ. rewrite sumQ_acc. ring. Qed.

Theorem C27_refuted : exists dms d, avg_dm1s dms = Ok d /\ ~ d == average dms.
Proof. exists [0; 2], ((0 + 2 + 2) / 2). split; [reflexivity|]. cbn. discriminate. Qed.
Print Assumptions C27_refuted.

(** What is used instead: the density of the last keyframe alone. *)
Theorem C27_last_only dms x d : avg_dm1s (dms ++ [x]) = Ok d -> d == x.
Proof.
  unfold avg_dm1s. rewrite rev_app_distr. cbn [rev app]. intros H. inversion H; subst. clear H.
  rewrite sumQ_right.
  assert (G : forall l : list Q, fold_right Qplus 0 (map (fun _ => x) l) == inject_Z (Z.of_nat (length l)) * x).
  { induction l as [|y l IH]; cbn [map fold_right length]; [ring|]. rewrite IH, Nat2Z.inj_succ.
    unfold Z.succ. rewrite inject_Z_plus. ring. }
  rewrite G. field. rewrite app_length. cbn [length]. intros E.
  rewrite Nat.add_1_r, Nat2Z.inj_succ in E. unfold Qeq in E. cbn in E. lia.
Qed.
Print Assumptions C27_last_only.

(** The potential next to it is averaged over all keyframes; and so is, in effect, the density when
    all keyframes have the same one. *)
Theorem C27_potential_partial veffs : avg_veff veffs == average veffs.
Proof. unfold avg_veff, average. rewrite sumQ_right. reflexivity. Qed.
Print Assumptions C27_potential_partial.

Theorem C27_equal_densities_partial x n d : avg_dm1s (repeat x (S n)) = Ok d -> d == average (repeat x (S n)).
Proof.
  intros H. assert (E : repeat x (S n) = repeat x n ++ [x]) by (rewrite <- repeat_cons; reflexivity).
  rewrite E in H. rewrite (C27_last_only _ _ _ H). unfold average.
  assert (G : forall m, fold_right Qplus 0 (repeat x m) == inject_Z (Z.of_nat m) * x).
  { induction m as [|m IH]; cbn [repeat fold_right]; [ring|]. rewrite IH, Nat2Z.inj_succ.
    unfold Z.succ. rewrite inject_Z_plus. ring. }
  rewrite G, repeat_length. field. rewrite Nat2Z.inj_succ. unfold Qeq; cbn; lia.
Qed.
Print Assumptions C27_equal_densities_partial.

Example C27_example : avg_dm1s [1; 5; 3] = Ok ((0 + 3 + 3 + 3) / 3) /\ average [1; 5; 3] == 3 /\
  avg_dm1s [] = Raise NameError.
Proof. repeat split. Qed.
Local Close Scope Q_scope.

(** ** C28 SortedIndexDict *)

(** After any history, reading gives the value last stored under any permutation of the key. *)
Theorem C28_read {V} (h : list (op V)) k :
  (forall v, snd (exec (fst (run [] h)) (Read k)) = AVal v <-> last_stored h k v) /\
  (snd (exec (fst (run [] h)) (Read k)) = AKeyError <-> never_stored h k).
Proof.
  pose proof (run_get h k) as G. cbn [exec snd]. destruct (raw_get _ _) as [w|].
  - split; [intros v; split|split; [discriminate|]].
    + intros E; inversion E; subst; auto.
    + intros L. rewrite (last_stored_unique h k w v); auto.
    + intros N. destruct (last_not_never h k w); auto.
  - split; [intros v; split; [discriminate|]|split; auto].
    intros L. destruct (last_not_never h k v); auto.
Qed.
Print Assumptions C28_read.

Theorem C28_get {V} (h : list (op V)) k df :
  (forall v, snd (exec (fst (run [] h)) (Get k df)) = AVal v <-> last_stored h k v) /\
  (snd (exec (fst (run [] h)) (Get k df)) = ADefault df <-> never_stored h k).
Proof.
  pose proof (run_get h k) as G. cbn [exec snd]. destruct (raw_get _ _) as [w|].
  - split; [intros v; split|split; [discriminate|]].
    + intros E; inversion E; subst; auto.
    + intros L. rewrite (last_stored_unique h k w v); auto.
    + intros N. destruct (last_not_never h k w); auto.
  - split; [intros v; split; [discriminate|]|split; auto].
    intros L. destruct (last_not_never h k v); auto.
Qed.
Print Assumptions C28_get.

(** Membership is not order-insensitive: a key just stored may be reported as absent. *)
Theorem C28_membership_refuted : exists (h : list (op nat)) k v,
  last_stored h k v /\ snd (exec (fst (run [] h)) (Contains k)) = ABool false.
Proof.
  exists [Store (KTuple [2; 1]%Z) 7], (KTuple [2; 1]%Z), 7. split; [|reflexivity].
  exists [], (KTuple [2; 1]%Z), []. repeat split; auto. cbn. apply Permutation_refl.
Qed.
Print Assumptions C28_membership_refuted.

Example C28_example :
  snd (run [] [Store (KTuple [2; 0; 1]%Z) 5; Read (KTuple [0; 1; 2]%Z); Store (KTuple [1; 2; 0]%Z) 6;
               Read (KTuple [2; 1; 0]%Z); Get (KTuple [1; 1]%Z) (Some 9); Read (KAtom 3)])
  = [ANone; AVal 5; ANone; AVal 6; ADefault (Some 9); AKeyError].
Proof. reflexivity. Qed.
