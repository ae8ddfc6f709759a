(** C72: which groups of CI vectors are taken for equivalent. *)
From Coq Require Import List Bool Arith ZArith Reals Lia Lra Psatz.
From Verif Require Import Base UrootModel PropUroot LinqModel LinqFacts.
Import ListNotations.
Local Open Scope R_scope.

(** same electrons, tags, number and shape of vectors *)
Definition alike (c : roots) (i j : nat) : Prop :=
  r_nelec c i = r_nelec c j /\ r_disc c i = r_disc c j /\ g_lroots (r_ci c i) = g_lroots (r_ci c j) /\ g_shape (r_ci c i) = g_shape (r_ci c j).
(** arrays that share memory are one array *)
Definition no_views (c : roots) : Prop := forall i j, r_shares c i j = true -> alike c i j -> forall a k, g_vec (r_ci c i) a k = g_vec (r_ci c j) a k.
Definition vectors_ok (c : roots) : Prop := forall k, (k < r_n c)%nat -> (0 < g_lroots (r_ci c k))%nat /\ orthonormal (r_ci c k).
(** numpy.linalg.svd is right about the overlaps of the groups *)
Definition svd_ok (svd : nat -> rmat -> rmat * (nat -> R) * rmat) (c : roots) : Prop := forall i j, (i < r_n c)%nat -> (j < r_n c)%nat -> svd_at svd (g_lroots (r_ci c i)) (g_ovlp (r_ci c i) (r_ci c j)).
(** the vectors of [y] are the vectors of [x], rotated *)
Definition rotated (x y : group) (w : rmat) : Prop := forall b k, (b < g_lroots x)%nat -> (k < g_size x)%nat -> g_vec y b k = rsum (g_lroots x) (fun a => g_vec x a k * w a b).

Section Facts.
  Variable svd : nat -> rmat -> rmat * (nat -> R) * rmat.
  Variables (lin : bool) (eps : R) (c : roots).
  Let same i j := fst (compare svd lin eps c i j).
  Definition good (st : uq_state) : Prop := let '(R, U, M) := st in forall k, if R k then U k = k /\ M k = None else same (U k) k = true /\ M k = snd (compare svd lin eps c (U k) k).
  Lemma compare_none i j : fst (compare svd lin eps c i j) = false -> snd (compare svd lin eps c i j) = None.
  Proof. unfold compare. repeat match goal with |- context [if ?b then _ else _] => destruct b end; cbn; congruence. Qed.
  Lemma step_ok st p : good st -> fst (uq_step svd lin eps c st p) = ur_step same (fst st) p /\ good (uq_step svd lin eps c st p).
  Proof.
    destruct st as [[R U] M], p as [i j]. intros G. unfold uq_step, ur_step. cbn [fst]. pose proof (compare_none i j) as Hc. unfold same at 1.
    destruct (R i) eqn:Ei; cbn [negb andb]; [|split; [reflexivity|exact G]]. destruct (R j) eqn:Ej; cbn [negb andb]; [|split; [reflexivity|exact G]].
    destruct (compare svd lin eps c i j) as [q u] eqn:Ec. cbn [fst snd] in *. destruct q.
    - split; [reflexivity|]. intros k. pose proof (G k) as Gk. unfold aset. destruct (Nat.eqb_spec k j) as [->|D].
      + unfold same. rewrite Ec. cbn [fst snd]. split; [reflexivity|]. rewrite Ej in Gk. destruct u; [now rewrite Nat.eqb_refl|apply Gk].
      + destruct u as [u|]; [|exact Gk]. rewrite (proj2 (Nat.eqb_neq k j) D). exact Gk.
    - rewrite (Hc eq_refl). split; [reflexivity|exact G].
  Qed.
  Lemma fold_ok l st : good st -> fst (fold_left (uq_step svd lin eps c) l st) = fold_left (ur_step same) l (fst st) /\ good (fold_left (uq_step svd lin eps c) l st).
  Proof.
    revert st. induction l as [|p l IH]; intros st G; [split; [reflexivity|exact G]|]. cbn [fold_left]. destruct (step_ok st p G) as [E G']. destruct (IH _ G') as [A B]. split; [rewrite A, E; reflexivity|exact B].
  Qed.
  Lemma images_ok : exists R U M, unique_images svd lin eps c = Ok (R, U, M) /\ get_unique_roots same (r_n c) = Ok (R, U) /\ good (R, U, M).
  Proof.
    destruct (fold_ok (pairs (r_n c)) (fun _ => true, fun k => k, fun _ => None)) as [E G]; [intros k; split; reflexivity|]. unfold unique_images.
    destruct (fold_left (uq_step svd lin eps c) (pairs (r_n c)) _) as [[R U] M]. cbn [fst] in E.
    destruct (C40_unique_roots same (r_n c)) as (R' & U' & idx & E' & _). unfold get_unique_roots, unique_roots in E'. rewrite <- E in E'.
    exists R, U, M. unfold get_unique_roots, unique_roots. rewrite <- E. destruct (forallb _ _); [|discriminate]. split; [reflexivity|]. split; [reflexivity|exact G].
  Qed.
  Lemma nelec_eq (p q : Z * Z) : (fst p =? fst q)%Z && (snd p =? snd q)%Z = true -> p = q.
  Proof. destruct p, q. cbn. intros H. apply andb_true_iff in H as [A B]. apply Z.eqb_eq in A, B. congruence. Qed.
  Lemma compare_alike i j : fst (compare svd lin eps c i j) = true -> alike c i j.
  Proof.
    unfold compare, alike. destruct (_ && _) eqn:E1; cbn [negb]; [|discriminate]. destruct (Nat.eqb_spec (g_lroots (r_ci c i)) (g_lroots (r_ci c j))) as [E2|]; cbn [negb]; [|discriminate].
    destruct (list_eq_dec _ _ _) as [E3|]; cbn [negb]; [|discriminate]. destruct (Z.eqb_spec (r_disc c i) (r_disc c j)) as [E4|]; cbn [negb]; [|discriminate]. intros _. apply nelec_eq in E1. repeat split; assumption.
  Qed.
  Definition bound (x : group) : R := Rmax (2 * INR (g_lroots x) * eps) (INR (g_lroots x) * INR (g_size x) * eps ^ 2).
  Lemma compare_dist i j : svd_ok svd c -> 0 < eps -> no_views c -> (i < r_n c)%nat -> (j < r_n c)%nat -> vectors_ok c -> fst (compare svd lin eps c i j) = true ->
    let w := match snd (compare svd lin eps c i j) with Some w => w | None => delta end in
    orthogonal (g_lroots (r_ci c i)) w /\ distance2 (r_ci c i) (r_ci c j) w <= bound (r_ci c i).
  Proof.
    intros Hs He Hv Hi Hj Ho H. pose proof (compare_alike i j H) as Al. pose proof Al as (A1 & A2 & A3 & A4). destruct (Ho i Hi) as [Li Oi]. destruct (Ho j Hj) as [Lj Oj].
    assert (Hn : g_lroots (r_ci c j) = g_lroots (r_ci c i)) by congruence. assert (HN : g_size (r_ci c j) = g_size (r_ci c i)) by (unfold g_size; congruence).
    set (x := r_ci c i) in *. set (y := r_ci c j) in *.
    assert (P1 : 0 <= 2 * INR (g_lroots x) * eps) by (pose proof (pos_INR (g_lroots x)); nra).
    pose proof (Rmax_l (2 * INR (g_lroots x) * eps) (INR (g_lroots x) * INR (g_size x) * eps ^ 2)) as B1. pose proof (Rmax_r (2 * INR (g_lroots x) * eps) (INR (g_lroots x) * INR (g_size x) * eps ^ 2)) as B2. fold (bound x) in B1, B2.
    revert H. unfold compare. fold x y. destruct (_ && _); cbn [negb]; [|discriminate]. destruct (_ =? _)%nat; cbn [negb]; [|discriminate]. destruct (list_eq_dec _ _ _); cbn [negb]; [|discriminate]. destruct (_ =? _)%Z; cbn [negb]; [|discriminate].
    destruct (r_shares c i j) eqn:Es; cbn [fst snd].
    - intros _. split; [apply delta_orth|]. rewrite (same_dist x y Hn HN); [lra|]. unfold same_entries, all_lt. apply forallb_forall. intros a _. apply forallb_forall. intros k _. unfold reqb. destruct (Req_EM_T _ _) as [|D]; [reflexivity|]. destruct D. exact (Hv i j Es Al a k).
    - destruct lin; cbn [negb]; [|discriminate]. destruct (same_entries x y) eqn:E1; cbn [fst snd].
      + intros _. split; [apply delta_orth|]. rewrite (same_dist x y Hn HN E1). lra.
      + destruct (close_entries eps x y) eqn:E2; cbn [fst snd].
        * intros _. split; [apply delta_orth|]. pose proof (close_dist x y Hn HN eps E2). lra.
        * destruct (near_one eps (g_lroots x) (g_ovlp x y)) eqn:E3; cbn [fst snd].
          -- intros _. split; [apply delta_orth|]. pose proof (near_one_dist x y Hn HN Oi Oj eps E3). lra.
          -- destruct (spans eps (g_lroots x) (g_ovlp x y)) eqn:E4; cbn [fst snd]; [|discriminate]. intros _. split; [apply rotation_orth, Hs; assumption|]. pose proof (rotation_dist x y Hn HN Oi Oj svd eps Li (Hs i j Hi Hj) E4). lra.
  Qed.
End Facts.

(** Every rootspace is mapped to a rootspace with the same electrons whose vectors, with the rotation that is stored, are its own up
    to the threshold; the function does not fail. *)
Theorem C72_equivalent : forall svd screen_linequiv eps (c : roots), svd_ok svd c -> 0 < eps -> no_views c -> vectors_ok c ->
  exists R U M, unique_images svd screen_linequiv eps c = Ok (R, U, M) /\
    forall k, (k < r_n c)%nat ->
      (U k <= k)%nat /\ R (U k) = true /\ (R k = true <-> U k = k) /\ (R k = true -> M k = None) /\ alike c (U k) k /\
      let w := match M k with Some w => w | None => delta end in
      orthogonal (g_lroots (r_ci c (U k))) w /\
      distance2 (r_ci c (U k)) (r_ci c k) w <= Rmax (2 * INR (g_lroots (r_ci c k)) * eps) (INR (g_lroots (r_ci c k)) * INR (g_size (r_ci c k)) * eps ^ 2).
Proof.
  intros svd lin eps c Hs He Hv Ho. destruct (images_ok svd lin eps c) as (R & U & M & E & E' & G). exists R, U, M. split; [exact E|]. intros k Hk.
  destruct (C40_unique_roots (fun i j => fst (compare svd lin eps c i j)) (r_n c)) as (R' & U' & idx & E2 & _ & _ & V & _). rewrite E' in E2. injection E2 as <- <-.
  destruct (V k Hk) as (V1 & V2 & V3 & V4 & V5). split; [exact V1|]. split; [exact V2|]. split; [exact V4|]. pose proof (G k) as Gk. destruct (R k) eqn:Rk.
  - destruct Gk as [Gu Gm]. rewrite Gu, Gm. split; [reflexivity|]. split; [repeat split|]. cbn zeta. split; [apply delta_orth|].
    rewrite same_dist; [|reflexivity|reflexivity|].
    + eapply Rle_trans; [|apply Rmax_l]. pose proof (pos_INR (g_lroots (r_ci c k))). nra.
    + unfold same_entries, all_lt. apply forallb_forall. intros a _. apply forallb_forall. intros b _. unfold reqb. destruct (Req_EM_T _ _) as [|D]; [reflexivity|now destruct D].
  - destruct Gk as [Gs Gm]. split; [discriminate|]. pose proof (compare_alike svd lin eps c _ _ Gs) as Al. split; [exact Al|]. rewrite Gm. cbn zeta. pose proof Al as (_ & _ & A3 & A4).
    replace (g_size (r_ci c k)) with (g_size (r_ci c (U k))) by (unfold g_size; congruence). rewrite <- A3. apply compare_dist; try assumption. lia.
Qed.
Print Assumptions C72_equivalent.

(** Two rootspaces that are kept apart do not span the same space. *)
Theorem C72_complete : forall svd eps (c : roots), 0 < eps -> vectors_ok c ->
  exists R U M, unique_images svd true eps c = Ok (R, U, M) /\
    forall i j w, (i < j < r_n c)%nat -> R i = true -> R j = true -> alike c i j -> orthogonal (g_lroots (r_ci c i)) w -> ~ rotated (r_ci c i) (r_ci c j) w.
Proof.
  intros svd eps c He Ho. destruct (images_ok svd true eps c) as (R & U & M & E & E' & _). exists R, U, M. split; [exact E|]. intros i j w Hij Ri Rj Al Hw Hr.
  destruct (C40_unique_roots (fun i j => fst (compare svd true eps c i j)) (r_n c)) as (R' & U' & idx & E2 & _ & _ & _ & V & _). rewrite E' in E2. injection E2 as <- <-.
  specialize (V i j Hij Ri Rj). cbn beta in V. destruct (Ho i ltac:(lia)) as [Li Oi]. destruct Al as (A1 & A2 & A3 & A4).
  pose proof (exact_spans (r_ci c i) (r_ci c j) Oi w eps Li He Hw Hr) as S. revert V. unfold compare.
  rewrite A1, !Z.eqb_refl. cbn [andb negb]. rewrite A3, Nat.eqb_refl. cbn [negb]. destruct (list_eq_dec _ _ _); [|contradiction]. cbn [negb]. rewrite A2, Z.eqb_refl. cbn [negb]. rewrite A3 in S. rewrite S.
  repeat match goal with |- context [if ?b then _ else _] => destruct b end; cbn; discriminate.
Qed.
Print Assumptions C72_complete.

(** For groups that span exactly the same space the rotation that is stored is the exact one. *)
Theorem C72_exact_rotation : forall svd screen_linequiv eps (c : roots) R U M, svd_ok svd c -> 0 < eps -> vectors_ok c ->
  unique_images svd screen_linequiv eps c = Ok (R, U, M) ->
  forall k w v, (k < r_n c)%nat -> M k = Some w -> orthogonal (g_lroots (r_ci c (U k))) v -> rotated (r_ci c (U k)) (r_ci c k) v ->
    forall a b, (a < g_lroots (r_ci c k))%nat -> (b < g_lroots (r_ci c k))%nat -> w a b = v a b.
Proof.
  intros svd lin eps c R U M Hs He Ho E k w v Hk Hm Hv Hr a b Ha Hb. destruct (images_ok svd lin eps c) as (R0 & U0 & M0 & E0 & E' & G). rewrite E in E0. injection E0 as <- <- <-.
  destruct (C40_unique_roots (fun i j => fst (compare svd lin eps c i j)) (r_n c)) as (R' & U' & idx & E2 & _ & _ & V & _). rewrite E' in E2. injection E2 as <- <-.
  destruct (V k Hk) as (V1 & _). specialize (G k). destruct (R k); [destruct G; congruence|]. destruct G as [Gs Gm]. rewrite Hm in Gm.
  pose proof (compare_alike svd lin eps c _ _ Gs) as (A1 & A2 & A3 & A4). destruct (Ho (U k) ltac:(lia)) as [Li Oi]. destruct (Ho k Hk) as [Lk Ok_].
  set (x := r_ci c (U k)) in *. set (y := r_ci c k) in *. assert (HN : g_size y = g_size x) by (unfold g_size; congruence).
  assert (Ew : w = u_vh svd (g_lroots x) (g_ovlp x y)).
  { revert Gm. unfold compare. fold x y. repeat match goal with |- context [if ?b then _ else _] => destruct b end; cbn [snd]; congruence. }
  assert (D : distance2 x y w = 0).
  { apply Rle_antisym; [|apply dist_pos]. apply le_epsilon. intros e Hp. set (e' := e / (2 * INR (g_lroots x))). assert (Hn : 0 < INR (g_lroots x)) by (apply lt_0_INR; exact Li).
    assert (He' : 0 < e') by (unfold e'; apply Rdiv_lt_0_compat; lra). rewrite Ew. eapply Rle_trans; [apply (rotation_dist x y (eq_sym A3) HN Oi Ok_ svd e' Li (Hs (U k) k ltac:(lia) Hk)); now apply (exact_spans x y Oi v)|]. unfold e'. right. field. lra. }
  (* both rotations give the vectors of y *)
  assert (Z : forall b k, (b < g_lroots x)%nat -> (k < g_size x)%nat -> g_vec y b k = rsum (g_lroots x) (fun a => g_vec x a k * w a b)).
  { intros b' k' Hb' Hk'. assert (Z0 : forall n f, (forall i, (i < n)%nat -> 0 <= f i) -> rsum n f = 0 -> forall i, (i < n)%nat -> f i = 0).
    { induction n as [|n IH]; intros f Hf Hz i Hi; [lia|]. cbn in Hz. pose proof (rsum_pos n f ltac:(intros; apply Hf; lia)). pose proof (Hf n ltac:(lia)). destruct (Nat.eq_dec i n) as [->|]; [lra|]. apply IH; [intros; apply Hf; lia|lra|lia]. }
    unfold distance2 in D. rewrite <- A3, HN in D. pose proof (Z0 _ _ ltac:(intros; apply rsum_pos; intros; apply pow2_ge_0) D b' Hb') as D1. cbn beta in D1.
    pose proof (Z0 _ _ ltac:(intros; apply pow2_ge_0) D1 k' Hk') as D2. cbn beta in D2. nra. }
  assert (Q : forall u, (forall b k, (b < g_lroots x)%nat -> (k < g_size x)%nat -> g_vec y b k = rsum (g_lroots x) (fun a => g_vec x a k * u a b)) -> g_ovlp x y a b = u a b).
  { intros u Hu. rewrite <- A3 in Ha, Hb. unfold g_ovlp. transitivity (rsum (g_lroots x) (fun c => rsum (g_size x) (fun k => g_vec x a k * g_vec x c k) * u c b)).
    - transitivity (rsum (g_size x) (fun k => rsum (g_lroots x) (fun c => g_vec x a k * g_vec x c k * u c b))); [apply rsum_ext; intros k' Hk'; rewrite (Hu b k' Hb Hk'), rsum_mul_l; apply rsum_ext; intros; ring|]. rewrite rsum_swap. apply rsum_ext. intros c0 _. symmetry. apply rsum_mul_r.
    - rewrite <- (rsum_delta (g_lroots x) a (fun c => u c b) Ha). apply rsum_ext. intros c0 Hc. now rewrite (Oi a c0 Ha Hc). }
  rewrite <- (Q w Z). apply Q. exact Hr.
Qed.
Print Assumptions C72_exact_rotation.

(** *** two rotated groups and one of another length *)
Definition w345 : rmat := fun a b => match a, b with 0%nat, 0%nat => 3 / 5 | 1%nat, 0%nat => 4 / 5 | 0%nat, 1%nat => - (4 / 5) | 1%nat, 1%nat => 3 / 5 | _, _ => 0 end.
Definition ex_group (k : nat) : group := match k with 0%nat => mkG 2 [1%nat; 2%nat] delta | 1%nat => mkG 2 [1%nat; 2%nat] (fun b j => w345 j b) | _ => mkG 1 [1%nat; 2%nat] delta end.
Definition ex_roots : roots := mkRoots 3 ex_group (fun _ => (1%Z, 0%Z)) (fun _ => 0%Z) (fun _ _ => false).
Definition ex_svd (n : nat) (o : rmat) : rmat * (nat -> R) * rmat := (o, fun _ => 1, delta).
Example C72_example : exists R U M w, unique_images ex_svd true (1 / 100) ex_roots = Ok (R, U, M) /\ map R [0; 1; 2]%nat = [true; false; true] /\ map U [0; 1; 2]%nat = [0; 0; 2]%nat /\
  M 0%nat = None /\ M 2%nat = None /\ M 1%nat = Some w /\ w 0%nat 0%nat = 3 / 5 /\ w 1%nat 0%nat = 4 / 5 /\ w 0%nat 1%nat = - (4 / 5) /\ w 1%nat 1%nat = 3 / 5.
Proof.
  assert (E01 : compare ex_svd true (1 / 100) ex_roots 0 1 = (true, Some (u_vh ex_svd 2 (g_ovlp (ex_group 0) (ex_group 1))))).
  { unfold compare. cbn [ex_roots r_nelec r_ci r_disc r_shares ex_group g_lroots g_shape fst snd Z.eqb Pos.eqb andb negb Nat.eqb]. destruct (list_eq_dec _ _ _) as [_|D]; [cbn [negb]|now destruct D].
    assert (E1 : same_entries (mkG 2 [1; 2]%nat delta) (mkG 2 [1; 2]%nat (fun b j => w345 j b)) = false).
    { unfold same_entries, all_lt, g_size. cbn. unfold reqb. destruct (Req_EM_T _ _) as [E|]; [|reflexivity]. exfalso. lra. }
    assert (E2 : close_entries (1 / 100) (mkG 2 [1; 2]%nat delta) (mkG 2 [1; 2]%nat (fun b j => w345 j b)) = false).
    { unfold close_entries, all_lt, g_size. cbn. unfold rltb. destruct (Rlt_dec _ _) as [E|]; [|reflexivity]. exfalso. apply Rabs_def2 in E. lra. }
    assert (E3 : near_one (1 / 100) 2 (g_ovlp (mkG 2 [1; 2]%nat delta) (mkG 2 [1; 2]%nat (fun b j => w345 j b))) = false).
    { unfold near_one, all_lt, g_ovlp, g_size. cbn. unfold rltb. destruct (Rlt_dec _ _) as [E|]; [|reflexivity]. exfalso. apply Rabs_def2 in E. lra. }
    assert (E4 : spans (1 / 100) 2 (g_ovlp (mkG 2 [1; 2]%nat delta) (mkG 2 [1; 2]%nat (fun b j => w345 j b))) = true).
    { unfold spans, trace1, trace2, g_ovlp, g_size. cbn. unfold rltb. destruct (Rlt_dec _ _) as [_|D]; [destruct (Rlt_dec _ _) as [_|D]; [reflexivity|]|]; exfalso; apply D; apply Rabs_def1; lra. }
    rewrite E1, E2, E3, E4. reflexivity. }
  unfold unique_images. change (r_n ex_roots) with 3%nat. change (pairs 3) with [(0, 1); (0, 2); (1, 2)]%nat. cbn [fold_left].
  assert (E02 : forall k, (k < 2)%nat -> compare ex_svd true (1 / 100) ex_roots k 2 = (false, None)) by (intros [|[|k]] H; [reflexivity|reflexivity|lia]).
  unfold uq_step. cbn [negb]. rewrite E01. unfold aset. cbn [negb Nat.eqb]. rewrite (E02 0%nat) by lia. cbn [seq forallb Nat.eqb andb].
  eexists _, _, _, _. split; [reflexivity|]. cbn. repeat split; unfold delta; cbn; lra.
Qed.

(** *** arrays that overlap in memory *)
(** rootspace [k] is the view of two numbers of the buffer that begins at [k] *)
Definition view_roots (buf : nat -> R) : roots :=
  mkRoots 2 (fun k => mkG 1 [1%nat; 2%nat] (fun _ j => buf (k + j)%nat)) (fun _ => (1%Z, 0%Z)) (fun _ => 0%Z) (fun i j => Nat.ltb i (j + 2) && Nat.ltb j (i + 2)).
(** np.shares_memory holds of overlapping views with orthogonal contents as well; these are taken for one, and no rotation restores the second *)
Theorem C72_views_refuted : forall svd lin eps, exists c R U M, vectors_ok c /\ unique_images svd lin eps c = Ok (R, U, M) /\ U 1%nat = 0%nat /\ M 1%nat = None /\
  forall w, orthogonal 1 w -> distance2 (r_ci c 0) (r_ci c 1) w = 2.
Proof.
  intros svd lin eps. exists (view_roots (fun k => if (k =? 1)%nat then 0 else 1)). do 3 eexists. split; [|split; [reflexivity|]].
  - intros k Hk. cbn in Hk. split; [cbn; lia|]. intros a b Ha Hb. cbn in Ha, Hb. destruct k as [|[|k]]; [| |lia]; destruct a; [|lia| |lia]; destruct b; try lia; unfold delta; cbn; ring.
  - split; [reflexivity|]. split; [reflexivity|]. intros w Hw. destruct (Hw 0%nat 0%nat ltac:(lia) ltac:(lia)) as [H _]. unfold delta in H. cbn in H. unfold distance2. cbn. nra.
Qed.
Print Assumptions C72_views_refuted.

(** *** vectors that are not normalised *)
Definition long_roots : roots :=
  mkRoots 2 (fun k => mkG 1 [1%nat; 2%nat] (fun _ j => match k, j with _, 0%nat => 1 | 1%nat, _ => 5 | _, _ => 0 end)) (fun _ => (1%Z, 0%Z)) (fun _ => 0%Z) (fun _ _ => false).
(** (1, 0) and (1, 5) have overlap one and are taken for the same vector *)
Theorem C72_not_normalised_refuted : forall svd eps, 0 < eps -> eps < 1 -> exists c R U M, unique_images svd true eps c = Ok (R, U, M) /\ U 1%nat = 0%nat /\ M 1%nat = None /\
  forall w, 25 <= distance2 (r_ci c 0) (r_ci c 1) w.
Proof.
  intros svd eps He Hlt. exists long_roots.
  assert (E : compare svd true eps long_roots 0 1 = (true, None)).
  { unfold compare. cbn [long_roots r_nelec r_ci r_disc r_shares g_lroots g_shape fst snd Z.eqb Pos.eqb andb negb Nat.eqb]. destruct (list_eq_dec _ _ _) as [_|D]; [cbn [negb]|now destruct D].
    destruct (same_entries _ _); [reflexivity|]. destruct (close_entries _ _ _); [reflexivity|].
    match goal with |- context [near_one eps 1 ?o] => assert (Z : near_one eps 1 o = true) end.
    { unfold near_one, all_lt, g_ovlp, g_size, rltb, delta. cbn. destruct (Rlt_dec _ _) as [_|D]; [reflexivity|]. exfalso. apply D. apply Rabs_def1; lra. }
    now rewrite Z. }
  unfold unique_images. change (r_n long_roots) with 2%nat. change (pairs 2) with [(0, 1)]%nat. cbn [fold_left]. unfold uq_step. cbn [negb]. rewrite E. cbn.
  do 3 eexists. split; [reflexivity|]. split; [reflexivity|]. split; [reflexivity|]. intros w. unfold distance2. cbn. pose proof (Rle_0_sqr (1 - w 0%nat 0%nat)) as Q. unfold Rsqr in Q. ring_simplify. ring_simplify in Q. lra.
Qed.
Print Assumptions C72_not_normalised_refuted.
