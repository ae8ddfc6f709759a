(** Facts about pair loops, unique roots and spin manifolds. *)
From Coq Require Import List Arith Bool ZArith Lia Sorted.
From Verif Require Import Base BaseFacts UrootModel.
Import ListNotations.
Local Open Scope nat_scope.

Lemma fold_inv {S X} (f : S -> X -> S) (P : list X -> S -> Prop) l s0 :
  P [] s0 -> (forall l1 x l2 s, l = l1 ++ x :: l2 -> P l1 s -> P (l1 ++ [x]) (f s x)) -> P l (fold_left f l s0).
Proof.
  intros H0 Hs. assert (G : forall l2 l1 s, l = l1 ++ l2 -> P l1 s -> P l (fold_left f l2 s)).
  { induction l2 as [|x l2 IH]; intros l1 s E H; [now rewrite app_nil_r in E; subst|].
    cbn. apply (IH (l1 ++ [x])); [now rewrite <- app_assoc | eapply Hs; eauto]. }
  now apply (G l []).
Qed.

(** ** Order of the loops *)
Definition lex (p q : nat * nat) : Prop := fst p < fst q \/ fst p = fst q /\ snd p < snd q.
Lemma sorted_app {X} (R : X -> X -> Prop) l1 l2 : StronglySorted R l1 -> StronglySorted R l2 ->
  (forall a b, In a l1 -> In b l2 -> R a b) -> StronglySorted R (l1 ++ l2).
Proof.
  induction 1 as [|a l Hl IH Ha]; intros H2 Hx; [exact H2|]. cbn. constructor.
  - apply IH; [exact H2|]. intros; apply Hx; [now right|assumption].
  - apply Forall_app. split; [exact Ha|]. apply Forall_forall. intros b Hb. apply Hx; [now left | exact Hb].
Qed.
Lemma rows_sorted (f : nat -> nat * nat) n s0 : StronglySorted lex (flat_map (fun i => map (fun j => (i, j)) (seq (fst (f i)) (snd (f i)))) (seq s0 n)).
Proof.
  revert s0. induction n as [|n IH]; intros s0; cbn; [constructor|]. apply sorted_app; [|apply IH|].
  - generalize (fst (f s0)) (snd (f s0)). intros a b. revert a. induction b as [|b IHb]; intros a; cbn; constructor; [apply IHb|].
    apply Forall_forall. intros x Hx. apply in_map_iff in Hx as (j & <- & Hj). apply in_seq in Hj. right. cbn. lia.
  - intros x y Hx Hy. apply in_map_iff in Hx as (j & <- & _). apply in_flat_map in Hy as (i & Hi & Hy). apply in_seq in Hi.
    apply in_map_iff in Hy as (j' & <- & _). left. cbn. lia.
Qed.
Lemma pairs_sorted n : StronglySorted lex (pairs n).
Proof. apply (rows_sorted (fun i => (S i, n - S i))). Qed.
Lemma pairs_wr_sorted n : StronglySorted lex (pairs_wr n).
Proof. apply (rows_sorted (fun i => (i, n - i))). Qed.
Lemma in_pairs n i j : In (i, j) (pairs n) <-> i < j < n.
Proof.
  unfold pairs. rewrite in_flat_map. split.
  - intros (x & Hx & H). apply in_map_iff in H as (y & [= -> ->] & Hy). apply in_seq in Hy. lia.
  - intros H. exists i. split; [apply in_seq; lia|]. apply in_map_iff. exists j. split; [reflexivity | apply in_seq; lia].
Qed.
Lemma in_pairs_wr n i j : In (i, j) (pairs_wr n) <-> i <= j < n.
Proof.
  unfold pairs_wr. rewrite in_flat_map. split.
  - intros (x & Hx & H). apply in_map_iff in H as (y & [= -> ->] & Hy). apply in_seq in Hy. lia.
  - intros H. exists i. split; [apply in_seq; lia|]. apply in_map_iff. exists j. split; [reflexivity | apply in_seq; lia].
Qed.
Lemma in_pairs_all n i j : In (i, j) (pairs_all n) <-> i < n /\ j < n.
Proof.
  unfold pairs_all. rewrite in_flat_map. split.
  - intros (x & Hx & H). apply in_map_iff in H as (y & [= -> ->] & Hy). apply in_seq in Hy, Hx. lia.
  - intros H. exists i. split; [apply in_seq; lia|]. apply in_map_iff. exists j. split; [reflexivity | apply in_seq; lia].
Qed.
Lemma sorted_before {X} (R : X -> X -> Prop) l1 x l2 a : StronglySorted R (l1 ++ x :: l2) -> In a l1 -> R a x.
Proof.
  induction l1 as [|y l1 IH]; intros Hs Hi; [easy|]. cbn in Hs. inversion Hs as [|? ? H1 H2]; subst. destruct Hi as [->|Hi].
  - rewrite Forall_forall in H2. apply H2, in_or_app. right. now left.
  - now apply IH.
Qed.
Lemma pairs_before n l1 i j l2 a b : pairs n = l1 ++ (i, j) :: l2 -> In (a, b) l1 -> (a < b < n) /\ i < j < n /\ (a < i \/ a = i /\ b < j).
Proof.
  intros E H. assert (In (a, b) (pairs n)) as Hi by (rewrite E; apply in_or_app; now left).
  assert (In (i, j) (pairs n)) as Hj by (rewrite E; apply in_or_app; right; now left).
  apply in_pairs in Hi, Hj. pose proof (pairs_sorted n) as Hs. rewrite E in Hs. pose proof (sorted_before _ _ _ _ _ Hs H) as L.
  unfold lex in L. cbn in L. lia.
Qed.
Lemma pairs_cur n l1 i j l2 : pairs n = l1 ++ (i, j) :: l2 -> i < j < n.
Proof. intros E. apply in_pairs. rewrite E. apply in_or_app. right. now left. Qed.

Lemma aset_eq {X} (f : nat -> X) i x : aset f i x i = x.
Proof. unfold aset. now rewrite Nat.eqb_refl. Qed.
Lemma aset_neq {X} (f : nat -> X) i x k : k <> i -> aset f i x k = f k.
Proof. intros H. unfold aset. destruct (Nat.eqb_spec k i); [contradiction|reflexivity]. Qed.

(** ** Unique roots *)
Definition ur_inv (same : nat -> nat -> bool) (l : list (nat * nat)) (st : (nat -> bool) * (nat -> nat)) : Prop :=
  let (R, U) := st in
  (forall k, R k = (U k =? k))
  /\ (forall k, U k <> k -> U k < k /\ In (U k, k) l /\ same (U k) k = true /\ R (U k) = true)
  /\ (forall i j, In (i, j) l -> R i = true -> R j = true -> same i j = false).
Lemma unique_roots_inv same n : ur_inv same (pairs n) (unique_roots same n).
Proof.
  unfold unique_roots. apply (fold_inv _ (ur_inv same)).
  - cbn. split; [intros; now rewrite Nat.eqb_refl|]. split; [intros k H; now destruct H | intros i j []].
  - intros l1 [i j] l2 [R U] E (I1 & I2 & I3). pose proof (pairs_cur _ _ _ _ _ E) as Hij. unfold ur_step.
    destruct (R i && R j && same i j) eqn:B.
    + apply andb_prop in B as [B B3]. apply andb_prop in B as [B1 B2]. cbn. split; [|split].
      * intros k. destruct (Nat.eq_dec k j) as [->|Hk]; [rewrite !aset_eq; symmetry; apply Nat.eqb_neq; lia | now rewrite !aset_neq].
      * intros k. destruct (Nat.eq_dec k j) as [->|Hk].
        -- rewrite !aset_eq. intros _. rewrite aset_neq by lia. repeat split; auto; try lia. apply in_or_app. right. now left.
        -- rewrite (aset_neq U) by exact Hk. intros Hu. destruct (I2 k Hu) as (J1 & J2 & J3 & J4).
           destruct (pairs_before _ _ _ _ _ _ _ E J2) as (_ & _ & L). rewrite aset_neq by lia.
           repeat split; auto. apply in_or_app. now left.
      * intros a b Hi. apply in_app_or in Hi as [Hi|[[= <- <-]|[]]]; [|rewrite aset_eq; discriminate].
        unfold aset. destruct (a =? j); [discriminate|]. destruct (b =? j); [discriminate|]. now apply I3.
    + cbn. split; [exact I1|]. split.
      * intros k Hk. destruct (I2 k Hk) as (J1 & J2 & J3 & J4). repeat split; auto. apply in_or_app. now left.
      * intros a b Hi H1 H2. apply in_app_or in Hi as [Hi|[[= <- <-]|[]]]; [now apply I3|]. rewrite H1, H2 in B. exact B.
Qed.

(** ** Compressed index *)
Lemma filter_nth (R : nat -> bool) n k : k < n -> R k = true ->
  nth_error (filter R (seq 0 n)) (length (filter R (seq 0 k))) = Some k.
Proof.
  intros Hk Hr. replace n with (k + S (n - S k)) by lia. rewrite seq_app, filter_app.
  rewrite nth_error_app2 by lia. rewrite Nat.sub_diag. cbn. now rewrite Hr.
Qed.

(** ** Spin manifolds *)
Lemma exclude0_inv d n :
  let E := exclude0 d n in
  (forall a, E a a = true) /\ (forall a b, E a b = E b a)
  /\ (forall a b, E a b = false -> compat d a b = true /\ u_spin d a <> u_spin d b).
Proof.
  cbn zeta. unfold exclude0. apply (fold_inv _ (fun _ E => (forall a : nat, E a a = true) /\ (forall a b, E a b = E b a)
     /\ (forall a b, E a b = false -> compat d a b = true /\ u_spin d a <> u_spin d b))).
  - repeat split; easy.
  - intros l1 [i j] l2 E0 E (I1 & I2 & I3). pose proof (pairs_cur _ _ _ _ _ E) as Hij.
    destruct (compat d i j) eqn:C; [|auto].
    assert (C' : compat d j i = true).
    { unfold compat in *. rewrite !andb_true_iff, !Z.eqb_eq in *. intuition congruence. }
    unfold aset2. repeat split.
    + intros a. destruct (Nat.eqb_spec a j), (Nat.eqb_spec a i); subst; try lia; cbn; try apply I1.
    + intros a b. destruct (Nat.eqb_spec a j), (Nat.eqb_spec b i), (Nat.eqb_spec a i), (Nat.eqb_spec b j); subst; cbn; try lia; try apply I2; reflexivity.
    + destruct (Nat.eqb_spec a j), (Nat.eqb_spec b i), (Nat.eqb_spec a i), (Nat.eqb_spec b j); subst; cbn in H; try lia; try exact C; try exact C'; try (now apply I3).
    + destruct (Nat.eqb_spec a j), (Nat.eqb_spec b i), (Nat.eqb_spec a i), (Nat.eqb_spec b j); subst; cbn in H; try lia; try (now apply I3); apply Z.eqb_neq in H; congruence.
Qed.

Definition sm_inv (E0 : nat -> nat -> bool) (l : list (nat * nat)) (st : sm_state) : Prop :=
  let '(E, (R, U)) := st in
  (forall a b, E a b = E b a) /\ (forall a b, E0 a b = true -> E a b = true)
  /\ (forall k, R k = (U k =? k))
  /\ (forall k, U k <> k -> U k < k /\ In (U k, k) l)
  /\ (forall k l', E0 k l' = true -> E (U k) l' = true)
  /\ (forall k k', U k = U k' -> k <> k' -> E0 k k' = false)
  /\ (forall k, R (U k) = true).
Lemma sm_inv_holds d ovl n : sm_inv (exclude0 d n) (pairs n) (fold_left (sm_step ovl) (pairs n) (exclude0 d n, (fun _ => true, fun k => k))).
Proof.
  destruct (exclude0_inv d n) as (D1 & D2 & _). set (E0 := exclude0 d n) in *. clearbody E0.
  apply (fold_inv _ (sm_inv E0)).
  - cbn. repeat split; auto; try (intros; congruence). intros; now rewrite Nat.eqb_refl.
  - intros l1 [i j] l2 [E [R U]] Ep (I1 & I2 & I3 & I4 & I5 & I6 & I7). pose proof (pairs_cur _ _ _ _ _ Ep) as Hij.
    assert (W : sm_inv E0 (l1 ++ [(i, j)]) (E, (R, U))).
    { cbn. split; [exact I1|]. split; [exact I2|]. split; [exact I3|]. split; [|auto]. intros k Hk. destruct (I4 k Hk) as [J1 J2]. split; [exact J1|]. apply in_or_app. now left. }
    unfold sm_step. destruct (E i j) eqn:Eij; [exact W|]. destruct (R i) eqn:Ri; [|exact W]. destruct (R j) eqn:Rj; [|exact W]. cbn [negb].
    destruct (ovl i j); [|exact W]. clear W.
    assert (Ui : U i = i) by (rewrite I3 in Ri; now apply Nat.eqb_eq).
    assert (Uj : U j = j) by (rewrite I3 in Rj; now apply Nat.eqb_eq).
    assert (Cj : forall k, U k = j -> k = j).
    { intros k Hk. destruct (Nat.eq_dec k j) as [|Hn]; [assumption|]. destruct (I4 k) as [_ J]; [congruence|]. rewrite Hk in J.
      destruct (pairs_before _ _ _ _ _ _ _ Ep J) as (_ & _ & L). lia. }
    assert (Eii : E i i = true) by apply I2, D1. assert (Ejj : E j j = true) by apply I2, D1.
    assert (Eji : E j i = false) by (rewrite I1; exact Eij).
    set (nr := fun k => E i k || E j k).
    set (E4 := fun a b => if b =? j then nr a else if b =? i then nr a else if a =? j then nr b else if a =? i then nr b else E a b).
    assert (nri : nr i = true) by (unfold nr; now rewrite Eii).
    assert (nrj : nr j = true) by (unfold nr; rewrite Ejj; apply orb_true_r).
    assert (E4s : forall a b, E4 a b = E4 b a).
    { intros a b. unfold E4. destruct (Nat.eqb_spec b j), (Nat.eqb_spec b i), (Nat.eqb_spec a j), (Nat.eqb_spec a i); subst; try lia; try congruence; apply I1. }
    assert (E4m : forall a b, E a b = true -> E4 a b = true).
    { intros a b H. unfold E4. destruct (Nat.eqb_spec b j); [subst; unfold nr; rewrite (I1 j a), H; apply orb_true_r|].
      destruct (Nat.eqb_spec b i); [subst; unfold nr; now rewrite (I1 i a), H|].
      destruct (Nat.eqb_spec a j); [subst; unfold nr; rewrite H; apply orb_true_r|].
      destruct (Nat.eqb_spec a i); [subst; unfold nr; now rewrite H|exact H]. }
    assert (E4i : forall l', nr l' = true -> E4 i l' = true).
    { intros l' H. unfold E4. destruct (Nat.eqb_spec l' j); [exact nri|]. destruct (Nat.eqb_spec l' i); [exact nri|].
      destruct (Nat.eqb_spec i j); [exact H|]. now rewrite Nat.eqb_refl. }
    split; [|split; [|split; [|split; [|split; [|split]]]]].
    + exact E4s.
    + intros a b H. apply E4m, I2, H.
    + intros k. destruct (Nat.eq_dec k j) as [->|Hk]; [rewrite !aset_eq; symmetry; apply Nat.eqb_neq; lia | now rewrite !aset_neq].
    + intros k. destruct (Nat.eq_dec k j) as [->|Hk].
      * rewrite aset_eq. intros _. split; [lia|]. apply in_or_app. right. now left.
      * rewrite aset_neq by exact Hk. intros Hu. destruct (I4 k Hu) as [J1 J2]. split; [exact J1|]. apply in_or_app. now left.
    + intros k l' H. destruct (Nat.eq_dec k j) as [->|Hk].
      * rewrite aset_eq. apply E4i. unfold nr. rewrite (I2 j l' H). apply orb_true_r.
      * rewrite aset_neq by exact Hk. apply E4m, I5, H.
    + intros k k' Hu Hn.
      assert (G : forall x, x <> j -> U x = i -> E0 x j = false).
      { intros x Hx Hux. destruct (E0 x j) eqn:F; [|reflexivity]. pose proof (I5 x j F) as F'. rewrite Hux in F'. congruence. }
      destruct (Nat.eq_dec k j) as [->|Hk].
      * rewrite aset_eq, aset_neq in Hu by auto. rewrite D2. apply G; auto.
      * rewrite aset_neq in Hu by exact Hk. destruct (Nat.eq_dec k' j) as [->|Hk'].
        -- rewrite aset_eq in Hu. now apply G.
        -- rewrite aset_neq in Hu by exact Hk'. now apply I6.
    + intros k. destruct (Nat.eq_dec k j) as [->|Hk].
      * rewrite aset_eq, aset_neq by lia. exact Ri.
      * rewrite (aset_neq U) by exact Hk. rewrite aset_neq; [apply I7|]. intros H. apply Hk, Cj, H.
Qed.
Lemma manifold_distinct d ovl n i j : spin_manifolds d ovl n i = spin_manifolds d ovl n j -> i <> j ->
  compat d i j = true /\ u_spin d i <> u_spin d j.
Proof.
  intros H Hn. pose proof (sm_inv_holds d ovl n) as I. unfold spin_manifolds in H.
  destruct (fold_left _ _ _) as [E [R U]]. destruct I as (_ & _ & _ & _ & _ & I6 & _). cbn in H.
  apply (exclude0_inv d n). now apply I6.
Qed.

(** ** Interaction map *)
Lemma ikey_eqb_eq a b : ikey_eqb a b = true <-> a = b.
Proof.
  destruct a as [[a1 a2] a3], b as [[b1 b2] b3]. unfold ikey_eqb. cbn. rewrite !andb_true_iff, !Nat.eqb_eq, Z.eqb_eq.
  split; [intros [[-> ->] ->]; reflexivity | intros [= -> -> ->]; auto].
Qed.
Lemma inter_get_ok sp m n i j : i < n -> j < n -> exists p q, inter_get sp m n (key_of sp m (i, j)) = Some (p, q)
  /\ p < n /\ q < n /\ key_of sp m (p, q) = key_of sp m (i, j).
Proof.
  intros Hi Hj. unfold inter_get. destruct (find _ _) as [[p q]|] eqn:E.
  - apply find_some in E as [E1 E2]. apply in_rev in E1. apply in_pairs_all in E1. apply ikey_eqb_eq in E2. exists p, q. intuition.
  - exfalso. assert (In (i, j) (rev (pairs_all n))) as H by (apply -> in_rev; now apply in_pairs_all).
    apply (find_none _ _ E) in H. rewrite (proj2 (ikey_eqb_eq _ _) eq_refl) in H. discriminate.
Qed.
Definition im_inv (sp : nat -> nat) (m : nat -> Z) (n : nat) (l : list (nat * nat)) (st : res im_state) : Prop :=
  exists M Q, st = Ok (M, Q) /\
  (forall a b, Q a b = Q b a) /\
  forall i j, In (i, j) l -> exists p q, inter_get sp m n (key_of sp m (i, j)) = Some (p, q)
    /\ M j i = (q, p) /\ (i <> j -> M i j = (p, q)) /\ Q p q = true.
Lemma inter_map_inv sp m n : im_inv sp m n (pairs_wr n) (inter_map sp m n).
Proof.
  unfold inter_map. apply (fold_inv _ (im_inv sp m n)).
  - do 2 eexists. split; [reflexivity|]. split; [reflexivity|]. intros i j [].
  - intros l1 [i j] l2 st E (M & Q & -> & Sq & I).
    assert (Hij : i <= j < n) by (apply in_pairs_wr; rewrite E; apply in_or_app; right; now left).
    destruct (inter_get_ok sp m n i j) as (p & q & G & _); [lia..|]. unfold im_step, bind. rewrite G.
    do 2 eexists. split; [reflexivity|]. split.
    + intros a b. unfold aset2. destruct (Nat.eqb_spec a p), (Nat.eqb_spec b q), (Nat.eqb_spec a q), (Nat.eqb_spec b p); cbn; auto.
    + intros a b Hi. apply in_app_or in Hi as [Hi|[[= <- <-]|[]]].
      * destruct (I a b Hi) as (p' & q' & J1 & J2 & J3 & J4). exists p', q'. split; [exact J1|].
        assert (Hab : a <= b < n) by (apply in_pairs_wr; rewrite E; apply in_or_app; now left).
        pose proof (pairs_wr_sorted n) as Hs. rewrite E in Hs. pose proof (sorted_before _ _ _ _ _ Hs Hi) as L. unfold lex in L. cbn in L.
        unfold aset2. split; [|split].
        -- destruct (Nat.eqb_spec b j), (Nat.eqb_spec a i), (Nat.eqb_spec b i), (Nat.eqb_spec a j); subst; cbn; try lia; auto.
        -- intros Hn. destruct (Nat.eqb_spec b j), (Nat.eqb_spec a i), (Nat.eqb_spec b i), (Nat.eqb_spec a j); subst; cbn; try lia; auto.
        -- rewrite J4. destruct ((p' =? q) && (q' =? p)), ((p' =? p) && (q' =? q)); reflexivity.
      * exists p, q. split; [exact G|]. unfold aset2. rewrite !Nat.eqb_refl. cbn. split; [reflexivity|]. split.
        -- intros Hn. destruct (Nat.eqb_spec i j); [contradiction|]. reflexivity.
        -- destruct ((p =? q) && (q =? p)); reflexivity.
Qed.
