(** Properties C16 and C17: maps between raw and orthonormal LASSI model states. *)
From Coq Require Import List ZArith Lia Bool Arith.
From Verif Require Import Base BaseFacts AddrModel AddrSpec AddrBlocks Star BasisModel BasisFacts BasisSpin BasisShift.
Import ListNotations.
Local Open Scope nat_scope.

(** ** C16 *)

(** Inner product of two vectors of length n, conjugating the first. *)
Definition inner (K : star_ring) (n : nat) (u v : nat -> K) : K :=
  bsum (seq 0 n) (fun k => smul (sconj (u k)) (v k)).

(** The shapes of one manifold fit: every m-block lists as many raw states as the matrix has rows, a
    missing matrix stands for a square one, and no raw state is used twice. *)
Definition shapes_ok {K} (m : manifold K) : Prop :=
  Forall (fun mirror => length mirror = nraw1 m) (prod_idx_ m) /\
  (xmat m = None -> north1 m = nraw1 m).
Definition covers_once {K} (mans : list (manifold K)) (nraw : nat) : Prop :=
  NoDup (concat (flat_map prod_idx_ mans)) /\
  (forall s, In s (concat (flat_map prod_idx_ mans)) -> s < nraw).
(** Orthonormal columns of the spatial matrix and of the spin-coupling matrix. *)
Definition x_orthonormal {K} (m : manifold K) : Prop :=
  forall c c' x, c < north1 m -> c' < north1 m -> xmat m = Some x ->
  bsum (seq 0 (nraw1 m)) (fun a => smul (x a c) (sconj (x a c'))) = if c =? c' then s1 else s0.
Definition u_orthonormal {K} (m : manifold K) : Prop :=
  forall t t', t < nt m -> t' < nt m ->
  bsum (seq 0 (length (prod_idx_ m))) (fun mi => smul (umat m mi t) (umat m mi t'))
  = if t =? t' then s1 else s0.
Definition u_real {K} (m : manifold K) : Prop :=
  forall mi t, mi < length (prod_idx_ m) -> t < nt m -> sconj (umat m mi t) = umat m mi t.
(** Number of orthonormal states: m-blocks times columns, or spin couplings times columns. *)
Definition n_orth {K} (mans : list (manifold K)) : nat :=
  fold_right Nat.add 0 (map (fun m => length (prod_idx_ m) * north1 m) mans).
Definition n_orth_spin {K} (mans : list (manifold K)) : nat :=
  fold_right Nat.add 0 (map (fun m => nt m * north1 m) mans).

Lemma n_orth_eq {K} (mans : list (manifold K)) : n_orth mans = fold_right Nat.add 0 (nprods_orth K mans).
Proof.
  unfold n_orth, nprods_orth. induction mans as [|m r IH]; cbn; auto. rewrite IH.
  assert (G : forall n x l, fold_right Nat.add 0 (repeat x n ++ l) = n * x + fold_right Nat.add 0 l)
    by (induction n; cbn; intros; auto; rewrite IHn; lia).
  rewrite G. auto.
Qed.

Theorem C16_adjoint : forall (K : star_ring) mans nraw,
  Forall shapes_ok mans -> covers_once mans nraw ->
  forall x y, inner K (n_orth mans) y (matvec K mans x) = inner K nraw (rmatvec K mans y) x.
Proof.
  intros K mans nraw Hs [H1 H2] x y. rewrite n_orth_eq. exact (orth_adjoint K mans nraw Hs H1 H2 x y).
Qed.
Print Assumptions C16_adjoint.

Theorem C16_round_trip : forall (K : star_ring) mans nraw,
  Forall shapes_ok mans -> covers_once mans nraw -> Forall x_orthonormal mans ->
  forall y k, k < n_orth mans -> matvec K mans (rmatvec K mans y) k = y k.
Proof.
  intros K mans nraw Hs [H1 H2] Hx y k. rewrite n_orth_eq. intros Hk.
  apply (orth_round_trip K mans Hs H1); auto. intros m Hm c c' Hc Hc' xx Hxx.
  rewrite Forall_forall in Hx. exact (Hx m Hm c c' xx Hc Hc' Hxx).
Qed.
Print Assumptions C16_round_trip.

Theorem C16_spin_adjoint : forall (K : star_ring) mans nraw,
  Forall shapes_ok mans -> Forall u_real mans -> covers_once mans nraw ->
  forall x y, inner K (n_orth_spin mans) y (sc_matvec K mans x) = inner K nraw (sc_rmatvec K mans y) x.
Proof. intros K mans nraw Hs Hu [H1 H2] x y. exact (sc_adjoint K mans nraw Hs Hu H1 H2 x y). Qed.
Print Assumptions C16_spin_adjoint.

Theorem C16_spin_round_trip : forall (K : star_ring) mans nraw,
  Forall shapes_ok mans -> Forall u_real mans -> covers_once mans nraw ->
  Forall x_orthonormal mans -> Forall u_orthonormal mans ->
  forall y k, k < n_orth_spin mans -> sc_matvec K mans (sc_rmatvec K mans y) k = y k.
Proof.
  intros K mans nraw Hs Hu [H1 H2] Hx Huu y k Hk.
  apply (sc_round_trip K mans Hs Hu H1); auto.
  - intros m Hm c c' Hc Hc' xx Hxx. rewrite Forall_forall in Hx. exact (Hx m Hm c c' xx Hc Hc' Hxx).
  - intros m Hm t t' Ht Ht'. rewrite Forall_forall in Huu. exact (Huu m Hm t t' Ht Ht').
Qed.
Print Assumptions C16_spin_round_trip.

(** A complex spin-coupling matrix would break adjointness: the reverse map does not conjugate it. *)
Theorem C16_spin_complex_umat_refuted : exists (mans : list (manifold Gstar)) nraw x y,
  Forall shapes_ok mans /\ covers_once mans nraw /\
  inner Gstar (n_orth_spin mans) y (sc_matvec Gstar mans x)
  <> inner Gstar nraw (sc_rmatvec Gstar mans y) x.
Proof.
  exists [mkMan Gstar [[0]] 1 1 None 1 (fun _ _ => (0, 1)%Z)], 1, (fun _ => (1, 0)%Z), (fun _ => (1, 0)%Z).
  split; [repeat constructor|]. split.
  - split; [cbn; repeat constructor; intros []|cbn; intros s [<-|[]]; lia].
  - vm_compute. congruence.
Qed.
Print Assumptions C16_spin_complex_umat_refuted.

(** Two manifolds on five raw states, one with a complex matrix, state 3 uncovered. *)
Definition ex_mans : list (manifold Gstar) :=
  [mkMan Gstar [[4; 1]] 2 1 (Some (fun a _ => if a =? 0 then (0, 1)%Z else (2, 0)%Z)) 1 (fun _ _ => (1, 0)%Z);
   mkMan Gstar [[0]; [2]] 1 1 None 1 (fun mi _ => if mi =? 0 then (0, 0)%Z else (1, 0)%Z)].
Example C16_example :
  let x := fun k => (Z.of_nat k, 1)%Z in let y := fun k => (1, Z.of_nat k)%Z in
  map (matvec Gstar ex_mans x) [0; 1; 2] = [(1, 6); (0, 1); (2, 1)]%Z /\
  map (rmatvec Gstar ex_mans y) [0; 1; 2; 3; 4] = [(1, 1); (2, 0); (1, 2); (0, 0); (0, -1)]%Z /\
  inner Gstar 3 y (matvec Gstar ex_mans x) = (6, 4)%Z /\
  inner Gstar 5 (rmatvec Gstar ex_mans y) x = (6, 4)%Z /\
  inner Gstar 2 y (sc_matvec Gstar ex_mans x) = inner Gstar 5 (sc_rmatvec Gstar ex_mans y) x.
Proof. vm_compute. repeat split. Qed.

(** ** C17 *)

(** What the segments should be: manifold n reads positions [before n, before (n+1)) of the
    intermediate vector and writes the same range of the final vector. *)
Definition aligned (sizes : list (nat * nat)) : Prop :=
  forall n rd wr, In (n, rd, wr) (shifter_segments sizes 0 0 0) ->
  rd = (before (map fst sizes) n, before (map fst sizes) (S n)) /\
  wr = (before (map snd sizes) n, before (map snd sizes) (S n)).

(** Singlet-singlet manifold (absent for total triplet, present for total singlet) listed before a
    triplet-triplet manifold: the result of the second is written over the first one's segment. *)
Theorem C17_segments_refuted : exists sizes, ~ aligned sizes.
Proof.
  exists [(0, 1); (1, 1)]. intros H.
  destruct (H 1 (0, 1) (0, 1)) as [_ H2]; [vm_compute; auto|]. vm_compute in H2. congruence.
Qed.
Print Assumptions C17_segments_refuted.

(** Segments are right exactly when, before every manifold that is applied, the manifolds that
    vanish do so on both sides. *)
Theorem C17_aligned_iff : forall sizes, aligned sizes <->
  (forall n k s f s' f', nth_error sizes n = Some (s, f) -> 0 < s -> 0 < f ->
     k < n -> nth_error sizes k = Some (s', f') -> (0 < s' <-> 0 < f')).
Proof.
  assert (Hb : forall s f, both (s, f) = true <-> 0 < s /\ 0 < f).
  { intros s f. unfold both. cbn [fst snd]. rewrite andb_true_iff, !Nat.ltb_lt. tauto. }
  intros sizes. split.
  - intros H n k s f s' f' Hn Hs Hf Hk Hk'.
    assert (Hin : In (n, (kept fst (firstn n sizes), kept fst (firstn n sizes) + s),
      (kept snd (firstn n sizes), kept snd (firstn n sizes) + f)) (shifter_segments sizes 0 0 0)).
    { apply segs_in. exists n, (s, f). repeat split; auto. apply Hb; auto. }
    apply H in Hin as [E1 E2]. apply pair_equal_spec in E1 as [E1 _], E2 as [E2 _].
    unfold before in E1, E2. rewrite firstn_map in E1, E2.
    assert (Hi : In (s', f') (firstn n sizes)).
    { apply nth_error_In with k. rewrite nth_error_firstn. destruct (Nat.ltb_spec k n); [exact Hk'|lia]. }
    apply kept_all with (p := (s', f')) in E1, E2; auto.
    rewrite Hb in E1, E2. cbn [fst snd] in *. lia.
  - intros H n [a b] [c d] Hin. apply segs_in in Hin as (q & [s f] & -> & Hq & Hp & -> & -> & -> & ->).
    apply Hb in Hp as [Hs Hf]. cbn [Nat.add fst snd].
    assert (Hlen : q < length sizes) by (apply nth_error_Some; congruence).
    assert (E1 : kept fst (firstn q sizes) = before (map fst sizes) q).
    { unfold before. rewrite firstn_map. apply kept_all. intros [s' f'] Hi. apply In_nth_error in Hi as [k Hk].
      assert (Hkq : k < q) by (apply nth_error_Some_lt in Hk; rewrite firstn_length in Hk; lia).
      rewrite nth_error_firstn in Hk. destruct (Nat.ltb_spec k q); [|lia].
      specialize (H q k s f s' f' Hq Hs Hf Hkq Hk). rewrite Hb. cbn [fst]. lia. }
    assert (E2 : kept snd (firstn q sizes) = before (map snd sizes) q).
    { unfold before. rewrite firstn_map. apply kept_all. intros [s' f'] Hi. apply In_nth_error in Hi as [k Hk].
      assert (Hkq : k < q) by (apply nth_error_Some_lt in Hk; rewrite firstn_length in Hk; lia).
      rewrite nth_error_firstn in Hk. destruct (Nat.ltb_spec k q); [|lia].
      specialize (H q k s f s' f' Hq Hs Hf Hkq Hk). rewrite Hb. cbn [snd]. lia. }
    rewrite E1, E2, !before_S by (rewrite map_length; auto).
    rewrite !(nth_error_nth _ _ 0 (map_nth_error _ _ _ Hq)). auto.
Qed.
Print Assumptions C17_aligned_iff.

(** Exactly the manifolds present on both sides are applied. *)
Theorem C17_applied : forall sizes n,
  (exists rd wr, In (n, rd, wr) (shifter_segments sizes 0 0 0)) <->
  (exists s f, nth_error sizes n = Some (s, f) /\ 0 < s /\ 0 < f).
Proof.
  assert (Hb : forall s f, both (s, f) = true <-> 0 < s /\ 0 < f).
  { intros s f. unfold both. cbn [fst snd]. rewrite andb_true_iff, !Nat.ltb_lt. tauto. }
  intros sizes n. split.
  - intros ([a b] & [c d] & H). apply segs_in in H as (q & [s f] & -> & Hq & Hp & _). apply Hb in Hp.
    exists s, f. tauto.
  - intros (s & f & Hq & Hs & Hf). eexists (_, _), (_, _). apply segs_in. exists n, (s, f).
    repeat split; eauto. apply Hb; auto.
Qed.
Print Assumptions C17_applied.

Example C17_example : shifter_segments [(2, 3); (0, 0); (4, 1)] 0 0 0
  = [(0, (0, 2), (0, 3)); (2, (2, 6), (3, 4))].
Proof. reflexivity. Qed.
Example C17_example_wrong : shifter_segments [(0, 2); (4, 2)] 0 0 0 = [(1, (0, 4), (0, 2))].
Proof. reflexivity. Qed.
