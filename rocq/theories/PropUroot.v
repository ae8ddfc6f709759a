(** Properties C40 and C41: unique rootspaces and the spin-manifold interaction map. *)
From Coq Require Import List Arith Bool ZArith Lia.
From Verif Require Import Base BaseFacts UrootModel UrootFacts PropLas.
Import ListNotations.
Local Open Scope nat_scope.

(** * C40 *)
(** For every outcome of the pairwise comparisons: no assertion fails, every rootspace has a unique
    image which is itself unique, comes first and is equal to it as far as the comparison tells, no two
    unique rootspaces compare equal, and the compressed index leads back to the image. *)
Theorem C40_unique_roots : forall same n, exists R U idx,
  get_unique_roots same n = Ok (R, U) /\ uroot_idx R U n = Ok idx /\ length idx = n /\
  (forall k, k < n ->
     U k <= k /\ R (U k) = true /\ U (U k) = U k /\ (R k = true <-> U k = k) /\ (U k <> k -> same (U k) k = true)) /\
  (forall i j, i < j < n -> R i = true -> R j = true -> same i j = false) /\
  (forall k, k < n -> exists x, nth_error idx k = Some x /\ nth_error (uroot_addr R n) x = Some (U k)) /\
  (forall x a, nth_error (uroot_addr R n) x = Some a -> nth_error idx a = Some x).
Proof.
  intros same n. pose proof (unique_roots_inv same n) as I. unfold get_unique_roots.
  destruct (unique_roots same n) as [R U]. destruct I as (I1 & I2 & I3).
  assert (Q : forall k, R (U k) = true).
  { intros k. destruct (Nat.eq_dec (U k) k) as [e|Hk]; [rewrite I1, e; now apply Nat.eqb_eq | now apply I2]. }
  assert (L : forall k, U k <= k) by (intros k; destruct (Nat.eq_dec (U k) k) as [e|Hk]; [lia | apply I2 in Hk; lia]).
  exists R, U, (map (fun k => length (filter R (seq 0 (U k)))) (seq 0 n)).
  assert (Hx : forall k, k < n -> nth_error (map (fun k => length (filter R (seq 0 (U k)))) (seq 0 n)) k = Some (length (filter R (seq 0 (U k))))).
  { intros k Hk. rewrite nth_error_map. rewrite (nth_error_nth' _ 0) by (rewrite seq_length; lia). cbn. now rewrite seq_nth by lia. }
  repeat split.
  - rewrite (proj2 (forallb_forall _ _)); [reflexivity | intros; apply Q].
  - unfold uroot_idx. assert (forall l, mapM (fun k => match uroot_inv R n (U k) with Some x => Ok x | None => Raise AssertionError end) l
      = Ok (map (fun k => length (filter R (seq 0 (U k)))) l)) as W; [|apply W].
    induction l as [|k l IH]; [reflexivity|]. cbn. unfold uroot_inv at 1. rewrite Q. cbn. now rewrite IH.
  - now rewrite map_length, seq_length.
  - apply L.
  - apply Q.
  - apply Nat.eqb_eq. rewrite <- I1. apply Q.
  - rewrite I1. apply Nat.eqb_eq.
  - rewrite I1. apply Nat.eqb_eq.
  - intros Hk. now apply I2.
  - intros i j Hij. apply I3, in_pairs, Hij.
  - intros k Hk. exists (length (filter R (seq 0 (U k)))). split; [now apply Hx|].
    apply filter_nth; [specialize (L k); lia | apply Q].
  - intros x a Ha. unfold uroot_addr in Ha. assert (In a (filter R (seq 0 n))) as Hin by (eapply nth_error_In; eauto).
    apply filter_In in Hin as [Hs Hr]. apply in_seq in Hs. rewrite Hx by lia. f_equal.
    assert (U a = a) as -> by (apply Nat.eqb_eq; rewrite <- I1; exact Hr).
    assert (nth_error (filter R (seq 0 n)) (length (filter R (seq 0 a))) = Some a) as E by (apply filter_nth; [lia|exact Hr]).
    assert (NoDup (filter R (seq 0 n))) as ND by apply NoDup_filter, seq_NoDup.
    rewrite NoDup_nth_error in ND. apply ND; [apply nth_error_Some; rewrite E; discriminate | now rewrite E, Ha].
Qed.
(** five rootspaces with 0 ~ 2, 1 ~ 4 and 2 ~ 3 (not transitive): 3 stays unique *)
Example C40_example :
  let same := fun i j => ((i =? 0) && (j =? 2)) || ((i =? 1) && (j =? 4)) || ((i =? 2) && (j =? 3)) in
  exists R U, get_unique_roots same 5 = Ok (R, U) /\ map R (seq 0 5) = [true; true; false; true; false]
    /\ map U (seq 0 5) = [0; 1; 0; 3; 1] /\ uroot_idx R U 5 = Ok [0; 1; 0; 2; 1].
Proof. do 2 eexists. repeat split; reflexivity. Qed.
Print Assumptions C40_unique_roots.

(** * C41 *)
(** Two rootspaces share a manifold only if they are in every respect alike except for the spin
    projection, which must differ. *)
Theorem C41_manifold : forall d ovl n i j,
  spin_manifolds d ovl n i = spin_manifolds d ovl n j -> i <> j ->
  u_nelec d i = u_nelec d j /\ u_smult d i = u_smult d j /\ u_lroots d i = u_lroots d j
  /\ u_disc d i = u_disc d j /\ u_spin d i <> u_spin d j.
Proof.
  intros d ovl n i j H Hn. destruct (manifold_distinct _ _ _ _ _ H Hn) as [C S].
  unfold compat in C. rewrite !andb_true_iff, !Z.eqb_eq in C. intuition.
Qed.
Print Assumptions C41_manifold.

(** What the interaction map promises, for any labelling in which the spin projections within a manifold differ *)
Definition distinct_m (sp : nat -> nat) (m : nat -> Z) (n : nat) : Prop :=
  forall i j, i < n -> j < n -> sp i = sp j -> m i = m j -> i = j.

Theorem C41_map : forall sp m n, distinct_m sp m n -> exists M Q, inter_map sp m n = Ok (M, Q) /\
  forall i j, i < n -> j < n -> exists p q, M i j = (p, q) /\ p < n /\ q < n
    /\ sp p = sp i /\ sp q = sp j /\ (m p - m q = m i - m j)%Z
    /\ M j i = (q, p) /\ Q p q = true /\ Q q p = true.
Proof.
  intros sp m n D. destruct (inter_map_inv sp m n) as (M & Q & E & Sq & I). exists M, Q. split; [exact E|].
  assert (W : forall i j, i <= j < n -> exists p q, p < n /\ q < n /\ sp p = sp i /\ sp q = sp j /\ (m p - m q = m i - m j)%Z
     /\ M i j = (p, q) /\ M j i = (q, p) /\ Q p q = true).
  { intros i j Hij. destruct (I i j) as (p & q & J1 & J2 & J3 & J4); [now apply in_pairs_wr|].
    destruct (inter_get_ok sp m n i j) as (p' & q' & G1 & G2 & G3 & G4); [lia..|]. rewrite J1 in G1. injection G1 as <- <-.
    unfold key_of in G4. cbn in G4. injection G4 as K1 K2 K3. exists p, q. repeat split; auto.
    destruct (Nat.eq_dec i j) as [->|Hn]; [|now apply J3].
    assert (p = q) as -> by (apply D; auto; [congruence | lia]). exact J2. }
  intros i j Hi Hj. destruct (le_ge_dec i j) as [H|H].
  - destruct (W i j) as (p & q & W1 & W2 & W3 & W4 & W5 & W6 & W7 & W8); [lia|]. exists p, q. repeat split; auto. now rewrite Sq.
  - destruct (W j i) as (p & q & W1 & W2 & W3 & W4 & W5 & W6 & W7 & W8); [lia|]. exists q, p. repeat split; auto; [lia | now rewrite Sq].
Qed.
Print Assumptions C41_map.

(** Manifolds built by the code have distinct projections, so the premise of C41_map always holds *)
Theorem C41_distinct : forall known d ovl n, distinct_m (spman known d ovl n) (u_spin d) n.
Proof.
  intros [|] d ovl n i j _ _ H Hm; cbn in H; [|exact H].
  destruct (Nat.eq_dec i j) as [|Hn]; [assumption|]. now destruct (C41_manifold _ _ _ _ _ H Hn) as (_ & _ & _ & _ & X).
Qed.
Print Assumptions C41_distinct.

(** Every density that can be non-zero by electron counting is in the table when it is asked for,
    provided the requested pair is not masked and masks only look at the discriminator *)
Theorem C41_computed : forall known d ovl n na nb mask M Q,
  (forall k, u_nelec d k = na k + nb k)%Z -> (forall k, u_spin d k = na k - nb k)%Z ->
  (forall i j, mask i j = mask j i) ->
  (forall i j p q, i < n -> j < n -> p < n -> q < n -> u_disc d i = u_disc d p -> u_disc d j = u_disc d q -> mask i j = mask p q) ->
  inter_map (spman known d ovl n) (u_spin d) n = Ok (M, Q) ->
  forall t i j, i < n -> j < n -> hop na nb i j = tag_hop t -> mask i j = true ->
  let (a, b) := lookup M t i j in
  a < n /\ b < n /\ computed na nb Q mask t a b = true.
Proof.
  intros known d ovl n na nb mask M Q Hn Hs Ms Mk E t i j Hi Hj Hh Hm.
  destruct (C41_map _ _ _ (C41_distinct known d ovl n)) as (M' & Q' & E' & C). rewrite E in E'. injection E' as <- <-.
  assert (P : forall x y, spman known d ovl n x = spman known d ovl n y -> u_nelec d x = u_nelec d y /\ u_disc d x = u_disc d y).
  { intros x y H. destruct (Nat.eq_dec x y) as [->|Hxy]; [auto|]. destruct known; cbn in H; [|contradiction].
    destruct (C41_manifold _ _ _ _ _ H Hxy) as (? & ? & ? & ? & ?). auto. }
  destruct (C i j Hi Hj) as (p & q & G & Hp & Hq & S1 & S2 & Sm & Gs & Q1 & Q2).
  destruct (P _ _ S1) as [N1 D1]. destruct (P _ _ S2) as [N2 D2].
  assert (Hop : hop na nb p q = tag_hop t).
  { rewrite <- Hh. unfold hop. rewrite !Hn in N1, N2. rewrite !Hs in Sm. f_equal; lia. }
  assert (Hm' : mask p q = true) by (rewrite <- Hm; apply Mk; auto).
  assert (HR : forall x, hop_eqb x x = true) by (intros x; unfold hop_eqb; now rewrite !Z.eqb_refl).
  assert (G0 : forall t', lookup M t' i j = (p, q) -> tag_hop t' = tag_hop t -> t' <> Tovlp -> t' <> Tdm ->
     let (a, b) := lookup M t' i j in a < n /\ b < n /\ computed na nb Q mask t' a b = true).
  { intros t' -> Ht T1 T2. split; [exact Hp|]. split; [exact Hq|].
    destruct t'; try contradiction; cbn [computed]; rewrite Ht, Hop, HR, Q1, Hm'; reflexivity. }
  destruct t.
  - cbn [lookup]. rewrite G. split; [exact Hp|]. split; [exact Hq|]. cbn [computed]. destruct (Nat.eqb_spec p q) as [<-|Npq]; [exact Hm'|].
    rewrite Hop, Q1. cbn [tag_hop]. rewrite HR, orb_true_l, andb_true_r. cbn [andb].
    destruct (le_ge_dec p q); [rewrite Nat.min_l, Nat.max_r by lia; exact Hm' | rewrite Nat.min_r, Nat.max_l by lia; now rewrite Ms].
  - cbn [lookup]. rewrite G. destruct (Nat.ltb_spec p q).
    + rewrite Gs. split; [exact Hq|]. split; [exact Hp|]. cbn [computed].
      assert (hop na nb q p = (0, 0)%Z) as ->. { unfold hop in *. cbn in Hop. injection Hop as X Y. f_equal; lia. }
      rewrite HR, Q2, Ms, Hm'. rewrite (proj2 (Nat.leb_le p q)) by lia. reflexivity.
    + split; [exact Hp|]. split; [exact Hq|]. cbn [computed]. rewrite Hop. cbn [tag_hop]. rewrite HR, Q1, Hm'. rewrite (proj2 (Nat.leb_le q p)) by lia. reflexivity.
  - apply G0; try discriminate; auto.
  - apply G0; try discriminate; auto.
  - apply G0; try discriminate; auto.
Qed.
Print Assumptions C41_computed.

(** A triplet (m = 2, 0) and a doublet (m = 1, -1) manifold: pair (1, 3) is looked up as (1, 3), (0, 2) as (1, 3) *)
Definition ex_d : udata := mkUd (fun k => if (k <? 2)%nat then 4 else 3)%Z
  (fun k => match k with 0%nat => 2 | 1%nat => 0 | 2%nat => 1 | _ => -1 end)%Z (fun k => if (k <? 2)%nat then 3 else 2)%Z (fun _ => 1%Z) (fun _ => 0%Z).
Example C41_example : exists M Q,
  inter_map (spman true ex_d (fun _ _ => true) 4) (u_spin ex_d) 4 = Ok (M, Q)
  /\ map (spman true ex_d (fun _ _ => true) 4) (seq 0 4) = [0; 0; 2; 2]
  /\ M 0 2 = (1, 3) /\ M 2 0 = (3, 1) /\ M 0 3 = (0, 3) /\ M 0 0 = (1, 1)
  /\ computed (fun k => match k with 0%nat => 3 | 1%nat => 2 | 2%nat => 2 | _ => 1 end)%Z (fun k => match k with 0%nat => 1 | 1%nat => 2 | 2%nat => 1 | _ => 2 end)%Z
       Q (fun _ _ => true) (Th false) 3 1 = true.
Proof. do 2 eexists. repeat split; vm_compute; reflexivity. Qed.

(** Finding: with a mask that separates rootspaces of one manifold, an unmasked pair can be looked up in
    an entry that was never computed (try_get_tdm then raises RuntimeError). *)
Theorem C41_masked_refuted : exists d ovl n na nb mask M Q i j,
  (forall k, u_nelec d k = na k + nb k)%Z /\ (forall k, u_spin d k = na k - nb k)%Z /\
  (forall a b, mask a b = mask b a) /\
  inter_map (spman true d ovl n) (u_spin d) n = Ok (M, Q) /\ i < n /\ j < n /\ mask i j = true /\
  hop na nb i j = tag_hop (Th false) /\ (let (a, b) := lookup M (Th false) i j in computed na nb Q mask (Th false) a b) = false.
Proof.
  exists ex_d, (fun _ _ => true), 4.
  exists (fun k => match k with 0%nat => 3 | 1%nat => 2 | 2%nat => 2 | _ => if (k <? 2)%nat then 2 else 1 end)%Z.
  exists (fun k => match k with 0%nat => 1 | 1%nat => 2 | 2%nat => 1 | _ => if (k <? 2)%nat then 2 else 2 end)%Z.
  exists (fun a b => negb ((3 =? a) || (3 =? b))).
  destruct C41_example as (M & Q & E & _). exists M, Q, 2, 0.
  assert (EM : exists M Q, inter_map (spman true ex_d (fun _ _ => true) 4) (u_spin ex_d) 4 = Ok (M, Q) /\ M 2 0 = (3, 1)).
  { do 2 eexists. split; vm_compute; reflexivity. }
  destruct EM as (M' & Q' & E' & H20). rewrite E in E'. injection E' as <- <-.
  split; [intros [|[|[|k]]]; reflexivity|]. split; [intros [|[|[|k]]]; reflexivity|].
  split; [intros a b; now rewrite orb_comm|]. split; [exact E|]. do 4 (split; [first [lia | reflexivity]|]).
  cbn [lookup]. rewrite H20. cbn. apply andb_false_r.
Qed.
Print Assumptions C41_masked_refuted.

(** Masks are merged before the loops over unique rootspaces: a requested pair of rootspaces is unmasked
    at its unique images, and nothing that was unmasked becomes masked. *)
Lemma merge_mono m i j a b : m a b = true -> mask_merge m i j a b = true.
Proof.
  unfold mask_merge. intros H. destruct (Nat.eqb_spec b i); [subst|].
  - destruct (Nat.eqb_spec a i); [subst; now rewrite H | now rewrite H].
  - destruct (Nat.eqb_spec a i); [subst; now rewrite H | exact H].
Qed.
Lemma merge_row m i j b : m j b = true -> mask_merge m i j i b = true.
Proof.
  unfold mask_merge. intros H. rewrite Nat.eqb_refl. destruct (Nat.eqb_spec b i); [subst|]; rewrite H; rewrite !orb_true_r; reflexivity.
Qed.
Lemma merge_col m i j a : m a j = true -> mask_merge m i j a i = true.
Proof.
  unfold mask_merge. intros H. rewrite Nat.eqb_refl. destruct (Nat.eqb_spec a i); [subst|]; rewrite H; cbn; rewrite !orb_true_r; reflexivity.
Qed.
Definition merges := fold_left (fun m (p : nat * nat) => mask_merge m (fst p) (snd p)).
Lemma merges_cons p l m : merges (p :: l) m = merges l (mask_merge m (fst p) (snd p)).
Proof. reflexivity. Qed.
Lemma merges_mono l m a b : m a b = true -> merges l m a b = true.
Proof. revert m. induction l as [|[i j] l IH]; intros m H; [exact H|]. apply IH, merge_mono, H. Qed.
Lemma merges_row l m i j b : In (i, j) l -> m j b = true -> merges l m i b = true.
Proof.
  revert m. induction l as [|p l IH]; intros m Hi H; [easy|]. rewrite merges_cons. destruct Hi as [->|Hi]; [apply merges_mono, merge_row, H|].
  apply IH; [exact Hi | apply merge_mono, H].
Qed.
Lemma merges_col l m i j a : In (i, j) l -> m a j = true -> merges l m a i = true.
Proof.
  revert m. induction l as [|p l IH]; intros m Hi H; [easy|]. rewrite merges_cons. destruct Hi as [->|Hi]; [apply merges_mono, merge_col, H|].
  apply IH; [exact Hi | apply merge_mono, H].
Qed.
Lemma merges_both l m i x j y : In (i, x) l -> In (j, y) l -> m x y = true -> merges l m i j = true.
Proof.
  revert m. induction l as [|p l IH]; intros m H1 H2 H; [easy|]. rewrite merges_cons. destruct H1 as [->|H1].
  - destruct H2 as [[= <- <-]|H2].
    + apply merges_mono. unfold mask_merge. cbn. rewrite !Nat.eqb_refl, H, !orb_true_r. reflexivity.
    + apply (merges_col l _ j y); [exact H2|]. apply merge_row, H.
  - destruct H2 as [->|H2].
    + apply (merges_row l _ i x); [exact H1|]. apply merge_col, H.
    + apply IH; auto. apply merge_mono, H.
Qed.
Lemma mask_update_merges R U n m : mask_update R U n m
  = merges (flat_map (fun i => map (fun j => (i, j)) (filter (fun j => U j =? i) (seq 0 n))) (filter R (seq 0 n))) (mask_sym m).
Proof.
  unfold mask_update, merges. generalize (mask_sym m). generalize (filter R (seq 0 n)) as l.
  induction l as [|i l IH]; intros m0; [reflexivity|]. cbn. rewrite fold_left_app, IH. f_equal.
  generalize (filter (fun j => U j =? i) (seq 0 n)) as l'. intros l'. revert m0. induction l' as [|j l' IH']; intros m0; [reflexivity|]. apply IH'.
Qed.
Theorem C41_mask : forall same n R U m, get_unique_roots same n = Ok (R, U) ->
  forall i j, i < n -> j < n -> m i j = true \/ m j i = true ->
  mask_update R U n m (U i) (U j) = true /\ mask_update R U n m i j = true.
Proof.
  intros same n R U m E i j Hi Hj H. destruct (C40_unique_roots same n) as (R' & U' & idx & E' & _ & _ & K & _).
  rewrite E in E'. injection E' as <- <-. rewrite mask_update_merges.
  assert (Hs : mask_sym m i j = true) by (unfold mask_sym; destruct H as [-> | ->]; [reflexivity | apply orb_true_r]).
  assert (W : forall k, k < n -> In (U k, k) (flat_map (fun i => map (fun j => (i, j)) (filter (fun j => U j =? i) (seq 0 n))) (filter R (seq 0 n)))).
  { intros k Hk. destruct (K k Hk) as (K1 & K2 & _). apply in_flat_map. exists (U k). split.
    - apply filter_In. split; [apply in_seq; lia | exact K2].
    - apply in_map_iff. exists k. split; [reflexivity|]. apply filter_In. split; [apply in_seq; lia | apply Nat.eqb_refl]. }
  split; [apply (merges_both _ _ _ i _ j); auto | now apply merges_mono].
Qed.
Example C41_mask_example : exists R U, get_unique_roots (fun i j => (i =? 0) && (j =? 2)) 3 = Ok (R, U) /\
  mask_update R U 3 (fun i j => (i =? 2) && (j =? 1)) 1 0 = true /\ mask_update R U 3 (fun i j => (i =? 2) && (j =? 1)) 1 1 = false.
Proof. do 2 eexists. repeat split; vm_compute; reflexivity. Qed.
Print Assumptions C41_mask.
