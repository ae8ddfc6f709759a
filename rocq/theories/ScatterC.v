(** What the C functions of ScatterModel add, as sums. *)
From Coq Require Import List ZArith Bool Arith Lia Sorting.Permutation.
From Verif Require Import Base BaseFacts Star SCModel SCBlocks StdmModel CrunchModel ScatterModel.
Import ListNotations.
Local Open Scope nat_scope.

Lemma i32_id z : (- 2 ^ 31 <= z < 2 ^ 31)%Z -> i32 z = z.
Proof. intros H. unfold i32. rewrite Z.mod_small by lia. lia. Qed.
Lemma i32_nat n : (n < 2 ^ 31)%Z -> (0 <= n)%Z -> i32 n = n.
Proof. intros. apply i32_id. lia. Qed.

(** destination and source of every element that blocks of a contiguous copy move *)
Definition pairs (dblk sblk lblk : list nat) : list (nat * nat) :=
  flat_map (fun i => combine (seq (nth i dblk 0) (nth i lblk 0)) (seq (nth i sblk 0) (nth i lblk 0))) (seq 0 (length lblk)).
Lemma in_combine_seq n : forall a b x y, In (x, y) (combine (seq a n) (seq b n)) <-> exists i, i < n /\ x = a + i /\ y = b + i.
Proof.
  induction n as [|n IH]; intros a b x y; cbn [seq combine]; [split; [intros [] | intros (i & Hi & _); lia]|].
  cbn [In]. rewrite IH. split.
  - intros [E|(i & Hi & -> & ->)]; [injection E as <- <-; exists 0; lia | exists (S i); lia].
  - intros ([|i] & Hi & -> & ->); [left; f_equal; lia | right; exists i; lia].
Qed.
Lemma combine_app_eq {A B} (a1 a2 : list A) (b1 b2 : list B) : length a1 = length b1 -> combine (a1 ++ a2) (b1 ++ b2) = combine a1 b1 ++ combine a2 b2.
Proof. revert b1. induction a1 as [|x a IH]; intros [|y b] L; try discriminate; [reflexivity|]. cbn in *. f_equal. apply IH. lia. Qed.
Lemma pairs_prefix lblk : forall o dblk, length dblk = length lblk ->
  flat_map (fun i => combine (seq (nth i dblk 0) (nth i lblk 0)) (seq (o + list_sum (firstn i lblk)) (nth i lblk 0))) (seq 0 (length lblk))
  = combine (flat_map (fun q => seq (fst q) (snd q)) (combine dblk lblk)) (seq o (list_sum lblk)).
Proof.
  induction lblk as [|l lblk IH]; intros o [|d dblk] L; try discriminate; [reflexivity|].
  cbn [length seq flat_map combine fst snd nth firstn]. rewrite <- seq_shift, flat_map_concat_map, map_map, <- flat_map_concat_map.
  change (list_sum (l :: lblk)) with (l + list_sum lblk). change (list_sum []) with 0. rewrite seq_app, combine_app_eq by (now rewrite !seq_length).
  f_equal; [now rewrite Nat.add_0_r|]. cbn in L. rewrite <- IH by lia. apply flat_map_ext. intros i. cbn [nth firstn].
  change (list_sum (l :: firstn i lblk)) with (l + list_sum (firstn i lblk)). now rewrite Nat.add_assoc.
Qed.
Lemma pairs_eq dblk sblk lblk : length dblk = length lblk -> (forall k, k < length lblk -> nth k sblk 0 = list_sum (firstn k lblk)) ->
  pairs dblk sblk lblk = combine (flat_map (fun q => seq (fst q) (snd q)) (combine dblk lblk)) (seq 0 (list_sum lblk)).
Proof.
  intros L H. rewrite <- (pairs_prefix lblk 0 dblk L). unfold pairs. apply flat_map_ext_in || idtac.
  rewrite !flat_map_concat_map. f_equal. apply map_ext_in. intros i Hi. apply in_seq in Hi. now rewrite H by lia.
Qed.
Lemma flat_seq_prefix lblk : forall o, flat_map (fun q => seq (fst q) (snd q)) (combine (map (fun k => o + list_sum (firstn k lblk)) (seq 0 (length lblk))) lblk) = seq o (list_sum lblk).
Proof.
  induction lblk as [|l lblk IH]; intros o; [reflexivity|]. cbn [length seq map combine flat_map fst snd firstn].
  change (list_sum (l :: lblk)) with (l + list_sum lblk). change (list_sum []) with 0. rewrite seq_app, Nat.add_0_r. f_equal.
  rewrite <- seq_shift, map_map, <- IH. f_equal. f_equal. apply map_ext. intros k. cbn [firstn].
  change (list_sum (l :: firstn k lblk)) with (l + list_sum (firstn k lblk)). lia.
Qed.

Lemma flat_disjoint {A B} (g : A -> list B) l : forall a b x, NoDup (flat_map g l) -> NoDup l -> In a l -> In b l -> a <> b -> In x (g a) -> In x (g b) -> False.
Proof.
  induction l as [|c l IH]; intros a b x ND NL Ia Ib Ne Xa Xb; [destruct Ia|]. cbn [flat_map] in ND. inversion NL as [|? ? Nc NL']; subst.
  assert (D : forall y, In y (g c) -> In y (flat_map g l) -> False).
  { clear - ND. induction (g c) as [|z r IHr]; intros y Y1 Y2; [destruct Y1|]. cbn [app] in ND. inversion ND as [|? ? Nz ND']; subst. destruct Y1 as [->|Y1]; [|exact (IHr ND' y Y1 Y2)]. apply Nz, in_or_app. now right. }
  assert (ND2 : NoDup (flat_map g l)) by (clear - ND; induction (g c) as [|z r IHr]; [exact ND|]; inversion ND; auto).
  destruct Ia as [->|Ia], Ib as [->|Ib]; [contradiction| | |].
  - apply (D x Xa). apply in_flat_map. eauto.
  - apply (D x Xb). apply in_flat_map. eauto.
  - exact (IH a b x ND2 NL' Ia Ib Ne Xa Xb).
Qed.
Section Sum.
  Context {K : star_ring}.
  Local Open Scope star_scope.
  Add Ring Kr : (sring K).
  Variable sched : nat -> list nat.
  Hypothesis Hsched : forall n, Permutation (sched n) (seq 0 n).
  Lemma c_for_add (n : nat) body (len so do_ : nat -> Z) (src dst : mem (K := K)) :
    (forall i m, (i < n)%nat -> body (Z.of_nat i) m = Ok (daxpy (len i) src (so i) m (do_ i))) ->
    exists m, c_for sched (Z.of_nat n) body dst = Ok m /\
      forall a, m a = dst a + bsum (seq 0 n) (fun i => if ((do_ i <=? a) && (a <? do_ i + len i))%Z then src (so i + (a - do_ i))%Z else s0).
  Proof.
    intros H. unfold c_for. rewrite Nat2Z.id.
    assert (G : forall l (dst : mem (K := K)), (forall i, In i l -> (i < n)%nat) -> exists m, fold_left (fun r i => do s <- r ;; body (Z.of_nat i) s) l (Ok dst) = Ok m /\
      forall a, m a = dst a + bsum l (fun i => if ((do_ i <=? a) && (a <? do_ i + len i))%Z then src (so i + (a - do_ i))%Z else s0)).
    { induction l as [|i l IH]; intros d Hl; [exists d; split; [reflexivity|]; intros a; cbn; ring|].
      cbn [fold_left bind]. rewrite H by (apply Hl; now left).
      destruct (IH (daxpy (len i) src (so i) d (do_ i))) as (m & E & V); [intros j Hj; apply Hl; now right|].
      exists m. split; [exact E|]. intros a. rewrite V. unfold daxpy. cbn [bsum]. destruct (_ && _); ring. }
    destruct (G (sched n) dst) as (m & E & V).
    { intros i Hi. apply (Permutation_in _ (Hsched n)), in_seq in Hi. lia. }
    exists m. split; [exact E|]. intros a. rewrite V. f_equal. apply bsum_perm, Hsched.
  Qed.
  (** one block *)
  Lemma block_sum (g : nat -> K) (d : nat) l : forall d0 s0',
    (if (d0 <=? d)%nat && (d <? d0 + l)%nat then g (s0' + (d - d0))%nat else s0) =
    bsum (combine (seq d0 l) (seq s0' l)) (fun ds => if (fst ds =? d)%nat then g (snd ds) else s0).
  Proof.
    induction l as [|l IH]; intros d0 s0'; cbn [seq combine bsum fst snd].
    - destruct (Nat.leb_spec d0 d), (Nat.ltb_spec d (d0 + 0)); cbn [andb]; auto; lia.
    - rewrite <- IH. destruct (Nat.eqb_spec d0 d) as [->|N].
      + replace (d <=? d)%nat with true by (symmetry; apply Nat.leb_le; lia). replace (d <? d + S l)%nat with true by (symmetry; apply Nat.ltb_lt; lia).
        replace (S d <=? d)%nat with false by (symmetry; apply Nat.leb_gt; lia). cbn [andb]. rewrite Nat.sub_diag, Nat.add_0_r. ring.
      + destruct (Nat.leb_spec d0 d), (Nat.ltb_spec d (d0 + S l)), (Nat.leb_spec (S d0) d), (Nat.ltb_spec d (S d0 + l)); cbn [andb]; try lia; try ring.
        replace (S s0' + (d - S d0))%nat with (s0' + (d - d0))%nat by lia. ring.
  Qed.
  (** the elements that arrive at position d *)
  Lemma pick_hit (g : nat -> K) t : forall o k, NoDup t -> (k < length t)%nat ->
    bsum (combine t (seq o (length t))) (fun ds => if (fst ds =? nth k t 0)%nat then g (snd ds) else s0) = g (o + k)%nat.
  Proof.
    induction t as [|x t IH]; intros o k ND Hk; [cbn in Hk; lia|]. cbn [length seq combine bsum fst snd].
    inversion ND as [|? ? Nx ND']; subst. destruct k as [|k]; cbn [nth].
    - rewrite Nat.eqb_refl, Nat.add_0_r, bsum_0; [ring|]. intros [a b] I. cbn [fst snd]. destruct (Nat.eqb_spec a x) as [->|]; [|reflexivity].
      exfalso. apply Nx. now apply in_combine_l in I.
    - cbn in Hk. rewrite (IH (S o) k) by (auto; lia). destruct (Nat.eqb_spec x (nth k t 0)) as [E|_]; [exfalso; apply Nx; rewrite E; apply nth_In; lia|].
      replace (S o + k)%nat with (o + S k)%nat by lia. ring.
  Qed.
  Lemma pick_miss (g : nat -> K) t d o : ~ In d t -> bsum (combine t (seq o (length t))) (fun ds => if (fst ds =? d)%nat then g (snd ds) else s0) = s0.
  Proof. intros N. apply bsum_0. intros [a b] I. cbn [fst snd]. destruct (Nat.eqb_spec a d) as [->|]; [|reflexivity]. apply in_combine_l in I. contradiction. Qed.
  Lemma bsum_div a b (f : nat -> nat -> K) : (0 < b)%nat -> bsum (seq 0 (a * b)) (fun i => f (i / b)%nat (i mod b)%nat) = bsum (seq 0 a) (fun i => bsum (seq 0 b) (fun j => f i j)).
  Proof.
    intros Hb. induction a as [|a IH]; [reflexivity|]. rewrite seq_S, bsum_app, <- IH. replace (S a * b)%nat with (a * b + b)%nat by lia. rewrite seq_app, bsum_app. f_equal.
    cbn [bsum]. rewrite !Nat.add_0_l. transitivity (bsum (seq 0 b) (fun j => f a j)); [|ring].
    replace (seq (a * b) b) with (map (fun j => (a * b + j)%nat) (seq 0 b)).
    - rewrite bsum_map. apply bsum_ext. intros j Hj. apply in_seq in Hj. rewrite Nat.add_comm, Nat.div_add, Nat.mod_add, Nat.div_small, Nat.mod_small by lia. reflexivity.
    - generalize (a * b)%nat. intros n. assert (G : forall o, map (fun j => (n + j)%nat) (seq o b) = seq (n + o) b).
      { clear. induction b as [|m IHm]; intros o; [reflexivity|]. cbn [seq map]. f_equal. rewrite IHm. f_equal. lia. }
      rewrite G. f_equal. lia.
  Qed.

  (** the blocks move the k-th destination from source k; all products of dimensions fit an int *)
  Variables (nd ns : nat) (t dblk sblk lblk : list nat).
  Hypothesis Ht : forall d, In d t -> (d < nd * nd)%nat.
  Hypothesis Hlen : length t = (ns * ns)%nat.
  Hypothesis Hnd : NoDup t.
  Hypothesis Hp : pairs dblk sblk lblk = combine t (seq 0 (length t)).
  Hypothesis Hpos : forall i, (i < length lblk)%nat -> (0 < nth i lblk 0)%nat.
  Hypothesis Hle : (ns <= nd)%nat.
  Hypothesis Hni : (length lblk <= nd * nd)%nat.
  Hypothesis Hint : (4 * Z.of_nat nd ^ 4 < 2 ^ 31)%Z.

  Lemma block_in i : (i < length lblk)%nat -> (nth i dblk 0 + nth i lblk 0 <= nd * nd)%nat /\ (nth i sblk 0 + nth i lblk 0 <= ns * ns)%nat.
  Proof.
    intros Hi. pose proof (Hpos i Hi) as P0.
    assert (I : In (nth i dblk 0 + (nth i lblk 0 - 1), nth i sblk 0 + (nth i lblk 0 - 1))%nat (pairs dblk sblk lblk)).
    { unfold pairs. apply in_flat_map. exists i. split; [apply in_seq; lia|]. apply in_combine_seq. exists (nth i lblk 0 - 1)%nat. lia. }
    rewrite Hp in I. pose proof (in_combine_l _ _ _ _ I) as I1. pose proof (in_combine_r _ _ _ _ I) as I2. apply Ht in I1. apply in_seq in I2. lia.
  Qed.
  Definition moved (g : nat -> K) (d : nat) : K := bsum (combine t (seq 0 (length t))) (fun ds => if (fst ds =? d)%nat then g (snd ds) else s0).
  Lemma blocks_sum (g : nat -> K) d : bsum (seq 0 (length lblk)) (fun i => if (nth i dblk 0 <=? d)%nat && (d <? nth i dblk 0 + nth i lblk 0)%nat then g (nth i sblk 0 + (d - nth i dblk 0))%nat else s0) = moved g d.
  Proof.
    unfold moved. rewrite <- Hp. unfold pairs. rewrite bsum_flat_map. apply bsum_ext. intros i _. apply block_sum.
  Qed.
  Lemma at_zs (l : list nat) i : at_ (zs l) (Z.of_nat i) = Z.of_nat (nth i l 0%nat).
  Proof. unfold at_, zs. rewrite Nat2Z.id. change 0%Z with (Z.of_nat 0). apply map_nth. Qed.
  Lemma pow4 : (Z.of_nat nd ^ 4 = Z.of_nat nd * Z.of_nat nd * (Z.of_nat nd * Z.of_nat nd))%Z.
  Proof. change (Z.of_nat nd ^ 4)%Z with (Z.of_nat nd * (Z.of_nat nd * (Z.of_nat nd * (Z.of_nat nd * 1))))%Z. ring. Qed.
  Lemma dims : (Z.of_nat ns * Z.of_nat ns <= Z.of_nat nd * Z.of_nat nd)%Z /\ (Z.of_nat nd * Z.of_nat nd * (Z.of_nat nd * Z.of_nat nd) < 2 ^ 29)%Z /\
    (Z.of_nat (length lblk) <= Z.of_nat nd * Z.of_nat nd)%Z /\ (Z.of_nat nd * Z.of_nat nd < 2 ^ 29)%Z.
  Proof. rewrite pow4 in Hint. repeat split; try nia. Qed.

  Lemma sub_lt (x y a b : Z) : (0 <= y -> x < a -> y < b -> x * b + y < a * b)%Z.
  Proof. nia. Qed.
  Lemma sub_lt_nat (x a b : nat) : (x < a -> x * b + b <= a * b)%nat.
  Proof. nia. Qed.
  (** no two blocks overlap *)
  Lemma blocks_disjoint i j d : (i < length lblk)%nat -> (j < length lblk)%nat -> (nth i dblk 0 <= d < nth i dblk 0 + nth i lblk 0)%nat -> (nth j dblk 0 <= d < nth j dblk 0 + nth j lblk 0)%nat -> i = j.
  Proof.
    intros Hi Hj Di Dj. destruct (Nat.eq_dec i j) as [E|Ne]; [exact E|exfalso].
    assert (F : forall (a b : list nat), length a = length b -> map fst (combine a b) = a).
    { induction a as [|x a IH]; intros [|y b] Lab; try discriminate; [reflexivity|]. cbn in *. f_equal. apply IH. lia. }
    assert (ND : NoDup (flat_map (fun i => seq (nth i dblk 0) (nth i lblk 0)) (seq 0 (length lblk)))).
    { replace (flat_map _ _) with t; [exact Hnd|]. rewrite <- (F t (seq 0 (length t))) by (now rewrite seq_length). rewrite <- Hp. unfold pairs. rewrite !flat_map_concat_map, concat_map, map_map. f_equal. apply map_ext.
      intros k. apply F. now rewrite !seq_length. }
    eapply (flat_disjoint _ _ i j d ND (seq_NoDup _ _)); [apply in_seq; lia..|exact Ne|apply in_seq; lia|apply in_seq; lia].
  Qed.
  Lemma daxpy_out (n : Z) (x y : mem (K := K)) i j a : ~ (j <= a < j + n)%Z -> daxpy n x i y j a = y a.
  Proof. intros H. unfold daxpy. destruct (Z.leb_spec j a), (Z.ltb_spec a (j + n)); cbn [andb]; try reflexivity. lia. Qed.
  Section Iter1.
  Let L := length lblk.
  Let bi i := (i / L)%nat.
  Let bj i := (i mod L)%nat.
  Lemma put_SD1_iter_is (src m : mem (K := K)) i : (i < 2 * L)%nat ->
    put_SD1_iter src 1 (Z.of_nat nd) (Z.of_nat ns) (zs dblk) (zs sblk) (zs lblk) (Z.of_nat (length lblk)) (Z.of_nat i) m
    = Ok (daxpy (Z.of_nat (nth (bj i) lblk 0%nat)) src (Z.of_nat (bi i * (ns * ns) + nth (bj i) sblk 0)%nat) m (Z.of_nat (bi i * (nd * nd) + nth (bj i) dblk 0)%nat)).
  Proof.
    destruct dims as (D1 & D2 & D3 & D4). fold L in D3 |- *.
    intros Hi. unfold put_SD1_iter. cbv zeta.
    rewrite (i32_nat (Z.of_nat nd * Z.of_nat nd)), (i32_nat (Z.of_nat ns * Z.of_nat ns)) by lia.
    rewrite (i32_nat (1 * 2)) by lia. rewrite (i32_nat (2 * Z.of_nat L)) by lia.
    rewrite (i32_nat (1 * 2 * (Z.of_nat ns * Z.of_nat ns))), (i32_nat (1 * 2 * (Z.of_nat nd * Z.of_nat nd))) by lia.
    assert (HL : (0 < L)%nat) by lia.
    assert (Hb : (bi i < 2)%nat) by (apply Nat.div_lt_upper_bound; lia). assert (Hj : (bj i < L)%nat) by (apply Nat.mod_upper_bound; lia).
    replace (2 * Z.of_nat L)%Z with (Z.of_nat (2 * L)) by lia.
    rewrite Z.quot_small, Z.rem_small by lia. rewrite Z.quot_div_nonneg, Z.rem_mod_nonneg by lia. rewrite <- Nat2Z.inj_div, <- Nat2Z.inj_mod.
    fold (bi i) (bj i). rewrite !at_zs. destruct (block_in (bj i) Hj) as [B1 B2]. pose proof (Hpos (bj i) Hj) as B3.
    replace (0 <? 1)%Z with true by reflexivity. replace (Z.of_nat (bi i) <? 2)%Z with true by (symmetry; apply Z.ltb_lt; lia).
    replace (Z.of_nat (bj i) <? Z.of_nat L)%Z with true by (symmetry; apply Z.ltb_lt; lia). cbn [py_assert].
    rewrite (i32_nat (0 * 2 + Z.of_nat (bi i))) by lia.
    assert (M1 : (0 <= (0 * 2 + Z.of_nat (bi i)) * (Z.of_nat ns * Z.of_nat ns) <= 1 * (Z.of_nat ns * Z.of_nat ns))%Z) by nia.
    assert (M2 : (0 <= (0 * 2 + Z.of_nat (bi i)) * (Z.of_nat nd * Z.of_nat nd) <= 1 * (Z.of_nat nd * Z.of_nat nd))%Z) by nia.
    rewrite (i32_nat ((0 * 2 + Z.of_nat (bi i)) * (Z.of_nat ns * Z.of_nat ns))), (i32_nat ((0 * 2 + Z.of_nat (bi i)) * (Z.of_nat nd * Z.of_nat nd))) by lia.
    assert (M3 : (Z.of_nat (nth (bj i) sblk 0%nat) < Z.of_nat ns * Z.of_nat ns)%Z) by nia. assert (M4 : (Z.of_nat (nth (bj i) dblk 0%nat) < Z.of_nat nd * Z.of_nat nd)%Z) by nia.
    rewrite !i32_nat by lia.
    rewrite (proj2 (Z.ltb_lt _ _)) by lia. cbn [py_assert]. rewrite (proj2 (Z.ltb_lt _ _)) by lia. cbn [py_assert]. f_equal. f_equal; lia.
  Qed.
  Lemma put_SD1_sum (dst src : mem (K := K)) : exists m,
    put_SD1 sched dst src 1 (Z.of_nat nd) (Z.of_nat ns) (zs dblk) (zs sblk) (zs lblk) (Z.of_nat (length lblk)) = Ok m /\
    forall s d, (s < 2)%nat -> (d < nd * nd)%nat -> m (Z.of_nat (s * (nd * nd) + d)) = dst (Z.of_nat (s * (nd * nd) + d)) + moved (fun k => src (Z.of_nat (s * (ns * ns) + k))) d.
  Proof.
    destruct dims as (D1 & D2 & D3 & D4). fold L in D3 |- *. unfold put_SD1. cbv zeta.
    rewrite (i32_nat (1 * 2)) by lia. rewrite (i32_nat (1 * 2 * Z.of_nat L)) by lia.
    replace (1 * 2 * Z.of_nat L)%Z with (Z.of_nat (2 * L)) by lia.
    destruct (c_for_add (2 * L) (put_SD1_iter src 1 (Z.of_nat nd) (Z.of_nat ns) (zs dblk) (zs sblk) (zs lblk) (Z.of_nat L)) (fun i => Z.of_nat (nth (bj i) lblk 0%nat)) (fun i => Z.of_nat (bi i * (ns * ns) + nth (bj i) sblk 0)%nat)
      (fun i => Z.of_nat (bi i * (nd * nd) + nth (bj i) dblk 0)%nat) src dst) as (m & E & V); [intros i m; apply put_SD1_iter_is|].
    exists m. split; [exact E|]. intros s d Hs Hd. rewrite V. f_equal. destruct (Nat.eq_dec L 0) as [Z0|HL].
    { rewrite Z0. cbn [Nat.mul seq bsum]. rewrite <- blocks_sum. fold L. rewrite Z0. reflexivity. }
    unfold bi, bj. rewrite (bsum_div 2 L (fun x y => if ((Z.of_nat (x * (nd * nd) + nth y dblk 0)%nat <=? Z.of_nat (s * (nd * nd) + d)%nat) && (Z.of_nat (s * (nd * nd) + d)%nat <? Z.of_nat (x * (nd * nd) + nth y dblk 0)%nat + Z.of_nat (nth y lblk 0%nat)))%Z then src (Z.of_nat (x * (ns * ns) + nth y sblk 0)%nat + (Z.of_nat (s * (nd * nd) + d)%nat - Z.of_nat (x * (nd * nd) + nth y dblk 0)%nat))%Z else s0)) by lia.
    rewrite (bsum_single K _ _ s); [|apply seq_NoDup|apply in_seq; lia|].
    - rewrite <- blocks_sum. apply bsum_ext. intros j Hj. apply in_seq in Hj. destruct (block_in j ltac:(fold L; lia)) as [B1 B2].
      destruct (Nat.leb_spec (nth j dblk 0) d) as [A|A]; destruct (Nat.ltb_spec d (nth j dblk 0 + nth j lblk 0)) as [B|B]; cbn [andb].
      + rewrite (proj2 (Z.leb_le _ _)), (proj2 (Z.ltb_lt _ _)) by lia. cbn [andb]. f_equal. lia.
      + rewrite andb_comm. rewrite (proj2 (Z.ltb_ge _ _)) by lia. reflexivity.
      + rewrite (proj2 (Z.leb_gt _ _)) by lia. reflexivity.
      + rewrite (proj2 (Z.leb_gt _ _)) by lia. reflexivity.
    - intros x Hx Hxs. apply in_seq in Hx. apply bsum_0. intros j Hj. apply in_seq in Hj. destruct (block_in j ltac:(fold L; lia)) as [B1 B2].
      assert (x < s \/ s < x)%nat as [C|C] by lia.
      + rewrite andb_comm. rewrite (proj2 (Z.ltb_ge _ _)) by nia. reflexivity.
      + rewrite (proj2 (Z.leb_gt _ _)) by nia. reflexivity.
  Qed.
  Lemma put_SD1_disjoint (src m : mem (K := K)) i j mi mj a : (i < 2 * L)%nat -> (j < 2 * L)%nat -> i <> j ->
    put_SD1_iter src 1 (Z.of_nat nd) (Z.of_nat ns) (zs dblk) (zs sblk) (zs lblk) (Z.of_nat (length lblk)) (Z.of_nat i) m = Ok mi ->
    put_SD1_iter src 1 (Z.of_nat nd) (Z.of_nat ns) (zs dblk) (zs sblk) (zs lblk) (Z.of_nat (length lblk)) (Z.of_nat j) m = Ok mj -> mi a = m a \/ mj a = m a.
  Proof.
    intros Hi Hj Ne Ei Ej. rewrite put_SD1_iter_is in Ei, Ej by assumption. injection Ei as <-. injection Ej as <-.
    assert (HL : (0 < L)%nat) by lia.
    assert (Mi : (bj i < L)%nat) by (apply Nat.mod_upper_bound; lia). assert (Mj : (bj j < L)%nat) by (apply Nat.mod_upper_bound; lia).
    destruct (block_in (bj i) Mi) as [B1 _]. destruct (block_in (bj j) Mj) as [B2 _].
    set (di := nth (bj i) dblk 0%nat) in *. set (dj := nth (bj j) dblk 0%nat) in *. set (li := nth (bj i) lblk 0%nat) in *. set (lj := nth (bj j) lblk 0%nat) in *.
    assert ((Z.of_nat (bi i * (nd * nd) + di) <= a < Z.of_nat (bi i * (nd * nd) + di) + Z.of_nat li)%Z \/ ~ (Z.of_nat (bi i * (nd * nd) + di) <= a < Z.of_nat (bi i * (nd * nd) + di) + Z.of_nat li)%Z) as [Ai|Ai] by lia; [|left; now apply daxpy_out].
    right. apply daxpy_out. intros Aj. apply Ne.
    assert (Eb : bi i = bi j).
    { destruct (Nat.lt_trichotomy (bi i) (bi j)) as [C|[C|C]]; [|exact C|]; pose proof (sub_lt_nat _ _ (nd * nd) C) as G; lia. }
    assert (Ej : bj i = bj j) by (apply (blocks_disjoint (bj i) (bj j) (Z.to_nat a - bi i * (nd * nd))%nat Mi Mj); fold di dj li lj; rewrite Eb in *; lia).
    unfold bi, bj in Eb, Ej. rewrite (Nat.div_mod i L), (Nat.div_mod j L) by lia. now rewrite Eb, Ej.
  Qed.
  End Iter1.
  Lemma moved_seq (g : nat -> K) d : moved g d = bsum (seq 0 (ns * ns)) (fun k => if (nth k t 0 =? d)%nat then g k else s0).
  Proof.
    unfold moved. rewrite <- Hlen. clear.
    transitivity (bsum (map (fun k => (nth k t 0, k)%nat) (seq 0 (length t))) (fun ds => if (fst ds =? d)%nat then g (snd ds) else s0)); [|now rewrite bsum_map].
    f_equal. assert (G : forall l o, combine l (seq o (length l)) = map (fun k => (nth (k - o) l 0, k)%nat) (seq o (length l))).
    { clear. induction l as [|x l IH]; intros o; [reflexivity|]. cbn [length seq combine map]. rewrite Nat.sub_diag. f_equal. rewrite IH. apply map_ext_in.
      intros k Hk. apply in_seq in Hk. replace (k - o)%nat with (S (k - S o)) by lia. reflexivity. }
    rewrite G. apply map_ext. intros k. now rewrite Nat.sub_0_r.
  Qed.
  Section Iter2.
  Let L := length lblk.
  Let P := (ns * ns)%nat.
  Let Q := (nd * nd)%nat.
  Let bi i := (i / (P * L))%nat.
  Let bp i := ((i mod (P * L)) / L)%nat.
  Let bj i := ((i mod (P * L)) mod L)%nat.
  Lemma put_SD2_iter_is (src m : mem (K := K)) i : (i < 4 * (P * L))%nat ->
    put_SD2_iter src 1 (Z.of_nat nd) (Z.of_nat ns) (zs t) (zs dblk) (zs sblk) (zs lblk) (Z.of_nat (length lblk)) (Z.of_nat i) m
    = Ok (daxpy (Z.of_nat (nth (bj i) lblk 0%nat)) src (Z.of_nat (bi i * (P * P) + (bp i * P + nth (bj i) sblk 0))%nat) m
        (Z.of_nat (bi i * (Q * Q) + (nth (bp i) t 0 * Q + nth (bj i) dblk 0))%nat)).
  Proof.
    destruct dims as (D1 & D2 & D3 & D4). fold L in D3 |- *.
    assert (D5 : (Z.of_nat ns * Z.of_nat ns * (Z.of_nat ns * Z.of_nat ns) <= Z.of_nat nd * Z.of_nat nd * (Z.of_nat nd * Z.of_nat nd))%Z) by nia.
    assert (D6 : (Z.of_nat ns * Z.of_nat ns * Z.of_nat L <= Z.of_nat nd * Z.of_nat nd * (Z.of_nat nd * Z.of_nat nd))%Z) by nia.
    assert (EP : (Z.of_nat ns * Z.of_nat ns = Z.of_nat P)%Z) by (unfold P; lia). assert (EQ : (Z.of_nat nd * Z.of_nat nd = Z.of_nat Q)%Z) by (unfold Q; lia).
    rewrite EP in *. rewrite EQ in *.
    intros Hi. unfold put_SD2_iter. cbv zeta. rewrite EP, EQ.
    rewrite (i32_nat (Z.of_nat Q)), (i32_nat (Z.of_nat P)) by lia.
    rewrite (i32_nat (Z.of_nat Q * Z.of_nat Q)), (i32_nat (Z.of_nat P * Z.of_nat P)) by lia.
    rewrite (i32_nat (1 * 4)) by lia. rewrite (i32_nat (4 * Z.of_nat P)) by lia.
    rewrite (i32_nat (4 * Z.of_nat P * Z.of_nat L)), (i32_nat (Z.of_nat P * Z.of_nat L)) by lia.
    assert (HL : (0 < L)%nat) by lia. assert (HP : (0 < P)%nat) by lia. assert (HPL : (0 < P * L)%nat) by lia.
    assert (Hb : (bi i < 4)%nat) by (apply Nat.div_lt_upper_bound; lia).
    assert (Hm : (i mod (P * L) < P * L)%nat) by (apply Nat.mod_upper_bound; lia).
    assert (Hq : (bp i < P)%nat) by (apply Nat.div_lt_upper_bound; lia).
    assert (Hj : (bj i < L)%nat) by (apply Nat.mod_upper_bound; lia).
    replace (4 * Z.of_nat P * Z.of_nat L)%Z with (Z.of_nat (4 * (P * L))) by lia. replace (Z.of_nat P * Z.of_nat L)%Z with (Z.of_nat (P * L)) by lia.
    rewrite (Z.quot_small (Z.of_nat i)), (Z.rem_small (Z.of_nat i) (Z.of_nat (4 * (P * L)))) by lia.
    rewrite (Z.quot_div_nonneg (Z.of_nat i)), (Z.rem_mod_nonneg (Z.of_nat i)) by lia. rewrite <- Nat2Z.inj_div, <- Nat2Z.inj_mod.
    rewrite Z.quot_div_nonneg, Z.rem_mod_nonneg by lia. rewrite <- Nat2Z.inj_div, <- Nat2Z.inj_mod.
    fold (bi i). change ((i mod (P * L)) / L)%nat with (bp i). change ((i mod (P * L)) mod L)%nat with (bj i).
    rewrite !at_zs. destruct (block_in (bj i) Hj) as [B1 B2]. fold P Q in B1, B2. pose proof (Hpos (bj i) Hj) as B3.
    assert (B4 : (nth (bp i) t 0 < Q)%nat) by (apply Ht, nth_In; lia).
    replace (0 <? 1)%Z with true by reflexivity. rewrite (proj2 (Z.ltb_lt (Z.of_nat (bi i)) 4)) by lia. rewrite (proj2 (Z.ltb_lt (Z.of_nat (bp i)) _)) by lia.
    rewrite (proj2 (Z.ltb_lt (Z.of_nat (bj i)) _)) by lia. cbn [py_assert].
    rewrite (i32_nat (0 * 4 + Z.of_nat (bi i))) by lia.
    assert (M3 : (Z.of_nat (nth (bj i) sblk 0%nat) < Z.of_nat P)%Z) by lia. assert (M4 : (Z.of_nat (nth (bj i) dblk 0%nat) < Z.of_nat Q)%Z) by lia.
    assert (M5 : (Z.of_nat (bp i) * Z.of_nat P + Z.of_nat (nth (bj i) sblk 0%nat) < Z.of_nat P * Z.of_nat P)%Z) by (apply sub_lt; lia).
    assert (M6 : (Z.of_nat (nth (bp i) t 0%nat) * Z.of_nat Q + Z.of_nat (nth (bj i) dblk 0%nat) < Z.of_nat Q * Z.of_nat Q)%Z) by (apply sub_lt; lia).
    rewrite (proj2 (Z.ltb_lt _ _)) by (apply sub_lt; lia). cbn [py_assert]. rewrite (proj2 (Z.ltb_lt _ _)) by (apply sub_lt; lia). cbn [py_assert].
    f_equal. f_equal; rewrite !Nat2Z.inj_add, !Nat2Z.inj_mul; ring.
  Qed.
  Lemma put_SD2_sum (dst src : mem (K := K)) : exists m,
    put_SD2 sched dst src 1 (Z.of_nat nd) (Z.of_nat ns) (zs t) (zs dblk) (zs sblk) (zs lblk) (Z.of_nat (length lblk)) = Ok m /\
    forall s d e, (s < 4)%nat -> (d < nd * nd)%nat -> (e < nd * nd)%nat ->
      m (Z.of_nat (s * (nd * nd * (nd * nd)) + (d * (nd * nd) + e))) = dst (Z.of_nat (s * (nd * nd * (nd * nd)) + (d * (nd * nd) + e))) +
      moved (fun k => moved (fun l => src (Z.of_nat (s * (ns * ns * (ns * ns)) + (k * (ns * ns) + l)))) e) d.
  Proof.
    destruct dims as (D1 & D2 & D3 & D4). fold L in D3 |- *.
    assert (D5 : (Z.of_nat ns * Z.of_nat ns * (Z.of_nat ns * Z.of_nat ns) <= Z.of_nat nd * Z.of_nat nd * (Z.of_nat nd * Z.of_nat nd))%Z) by nia.
    assert (D6 : (Z.of_nat ns * Z.of_nat ns * Z.of_nat L <= Z.of_nat nd * Z.of_nat nd * (Z.of_nat nd * Z.of_nat nd))%Z) by nia.
    assert (EP : (Z.of_nat ns * Z.of_nat ns = Z.of_nat P)%Z) by (unfold P; lia). assert (EQ : (Z.of_nat nd * Z.of_nat nd = Z.of_nat Q)%Z) by (unfold Q; lia).
    rewrite EP in *. rewrite EQ in *.
    unfold put_SD2. cbv zeta. rewrite EP. rewrite (i32_nat (Z.of_nat P)) by lia. rewrite (i32_nat (1 * 4)) by lia.
    rewrite (i32_nat (1 * 4 * Z.of_nat P)) by lia. rewrite (i32_nat (1 * 4 * Z.of_nat P * Z.of_nat L)) by lia.
    replace (1 * 4 * Z.of_nat P * Z.of_nat L)%Z with (Z.of_nat (4 * (P * L))) by lia.
    destruct (c_for_add (4 * (P * L)) (put_SD2_iter src 1 (Z.of_nat nd) (Z.of_nat ns) (zs t) (zs dblk) (zs sblk) (zs lblk) (Z.of_nat L)) (fun i => Z.of_nat (nth (bj i) lblk 0%nat)) (fun i => Z.of_nat (bi i * (P * P) + (bp i * P + nth (bj i) sblk 0))%nat)
      (fun i => Z.of_nat (bi i * (Q * Q) + (nth (bp i) t 0 * Q + nth (bj i) dblk 0))%nat) src dst) as (m & E & V); [intros i m; apply put_SD2_iter_is|].
    fold P Q.
    exists m. split; [exact E|]. intros s d e Hs Hd He. rewrite V. f_equal. clear E V.
    rewrite moved_seq. fold P.
    destruct (Nat.eq_dec (P * L) 0) as [Z0|HPL].
    { rewrite Z0. cbn [Nat.mul seq bsum]. destruct (Nat.eq_dec P 0) as [->|HP]; [reflexivity|]. assert (Z1 : L = 0%nat) by nia.
      symmetry. apply bsum_0. intros k _. destruct (_ =? _)%nat; [|reflexivity]. rewrite <- blocks_sum. fold L. rewrite Z1. reflexivity. }
    set (a := Z.of_nat (s * (Q * Q) + (d * Q + e))).
    unfold bi, bp, bj. rewrite (bsum_div 4 (P * L) (fun x j => if ((Z.of_nat (x * (Q * Q) + (nth (j / L) t 0 * Q + nth (j mod L) dblk 0))%nat <=? a) && (a <? Z.of_nat (x * (Q * Q) + (nth (j / L) t 0 * Q + nth (j mod L) dblk 0))%nat + Z.of_nat (nth (j mod L) lblk 0%nat)))%Z then src (Z.of_nat (x * (P * P) + (j / L * P + nth (j mod L) sblk 0))%nat + (a - Z.of_nat (x * (Q * Q) + (nth (j / L) t 0 * Q + nth (j mod L) dblk 0))%nat))%Z else s0)) by lia.
    assert (T : forall k, (k < P)%nat -> (nth k t 0 < Q)%nat) by (intros k Hk; apply Ht, nth_In; lia).
    rewrite (bsum_single K _ _ s); [|apply seq_NoDup|apply in_seq; lia|].
    - rewrite (bsum_div P L (fun k y => if ((Z.of_nat (s * (Q * Q) + (nth k t 0 * Q + nth y dblk 0))%nat <=? a) && (a <? Z.of_nat (s * (Q * Q) + (nth k t 0 * Q + nth y dblk 0))%nat + Z.of_nat (nth y lblk 0%nat)))%Z then src (Z.of_nat (s * (P * P) + (k * P + nth y sblk 0))%nat + (a - Z.of_nat (s * (Q * Q) + (nth k t 0 * Q + nth y dblk 0))%nat))%Z else s0)) by lia.
      apply bsum_ext. intros k Hk. apply in_seq in Hk. specialize (T k ltac:(lia)).
      destruct (Nat.eqb_spec (nth k t 0) d) as [Ed|Nd].
      + rewrite <- blocks_sum. apply bsum_ext. intros j Hj. apply in_seq in Hj. destruct (block_in j ltac:(fold L; lia)) as [B1 B2]. fold P Q in B1, B2.
        rewrite Ed. unfold a. destruct (Nat.leb_spec (nth j dblk 0) e) as [A|A]; destruct (Nat.ltb_spec e (nth j dblk 0 + nth j lblk 0)) as [B|B]; cbn [andb].
        * rewrite (proj2 (Z.leb_le _ _)), (proj2 (Z.ltb_lt _ _)) by lia. cbn [andb]. f_equal. lia.
        * rewrite andb_comm. rewrite (proj2 (Z.ltb_ge _ _)) by lia. reflexivity.
        * rewrite (proj2 (Z.leb_gt _ _)) by lia. reflexivity.
        * rewrite (proj2 (Z.leb_gt _ _)) by lia. reflexivity.
      + apply bsum_0. intros j Hj. apply in_seq in Hj. destruct (block_in j ltac:(fold L; lia)) as [B1 B2]. fold P Q in B1, B2.
        assert (nth k t 0 < d \/ d < nth k t 0)%nat as [C|C] by lia.
        * rewrite andb_comm. rewrite (proj2 (Z.ltb_ge _ _)); [reflexivity|]. unfold a. assert (nth k t 0 * Q + Q <= d * Q)%nat by (apply sub_lt_nat; lia). lia.
        * rewrite (proj2 (Z.leb_gt _ _)); [reflexivity|]. unfold a. assert (d * Q + Q <= nth k t 0 * Q)%nat by (apply sub_lt_nat; lia). lia.
    - intros x Hx Hxs. apply in_seq in Hx. apply bsum_0. intros j Hj. apply in_seq in Hj.
      assert (Hjl : (j mod L < L)%nat) by (apply Nat.mod_upper_bound; lia). assert (Hjp : (j / L < P)%nat) by (apply Nat.div_lt_upper_bound; lia).
      destruct (block_in (j mod L) Hjl) as [B1 B2]. fold P Q in B1, B2. specialize (T _ Hjp).
      assert (S1 : (nth (j / L) t 0 * Q + Q <= Q * Q)%nat) by (apply sub_lt_nat; lia). assert (S2 : (d * Q + Q <= Q * Q)%nat) by (apply sub_lt_nat; lia).
      assert (x < s \/ s < x)%nat as [C|C] by lia.
      + rewrite andb_comm. rewrite (proj2 (Z.ltb_ge _ _)); [reflexivity|]. unfold a. assert (x * (Q * Q) + Q * Q <= s * (Q * Q))%nat by (apply sub_lt_nat; lia). lia.
      + rewrite (proj2 (Z.leb_gt _ _)); [reflexivity|]. unfold a. assert (s * (Q * Q) + Q * Q <= x * (Q * Q))%nat by (apply sub_lt_nat; lia). lia.
  Qed.
  Lemma put_SD2_disjoint (src m : mem (K := K)) i j mi mj a : (i < 4 * (P * L))%nat -> (j < 4 * (P * L))%nat -> i <> j ->
    put_SD2_iter src 1 (Z.of_nat nd) (Z.of_nat ns) (zs t) (zs dblk) (zs sblk) (zs lblk) (Z.of_nat (length lblk)) (Z.of_nat i) m = Ok mi ->
    put_SD2_iter src 1 (Z.of_nat nd) (Z.of_nat ns) (zs t) (zs dblk) (zs sblk) (zs lblk) (Z.of_nat (length lblk)) (Z.of_nat j) m = Ok mj -> mi a = m a \/ mj a = m a.
  Proof.
    intros Hi Hj Ne Ei Ej. rewrite put_SD2_iter_is in Ei, Ej by assumption. injection Ei as <-. injection Ej as <-.
    assert (HL : (0 < L)%nat) by lia. assert (HP : (0 < P)%nat) by lia. assert (HPL : (0 < P * L)%nat) by lia.
    assert (W : forall x, (x < 4 * (P * L))%nat -> (bj x < L)%nat /\ (bp x < P)%nat).
    { intros x Hx. split; [apply Nat.mod_upper_bound; lia|]. apply Nat.div_lt_upper_bound; [lia|]. pose proof (Nat.mod_upper_bound x (P * L)). lia. }
    destruct (W i Hi) as [Mi Pi]. destruct (W j Hj) as [Mj Pj].
    destruct (block_in (bj i) Mi) as [B1 _]. destruct (block_in (bj j) Mj) as [B2 _]. fold Q in B1, B2.
    assert (Ti : (nth (bp i) t 0 < Q)%nat) by (apply Ht, nth_In; lia). assert (Tj : (nth (bp j) t 0 < Q)%nat) by (apply Ht, nth_In; lia).
    pose proof (sub_lt_nat _ _ Q Ti) as Gi. pose proof (sub_lt_nat _ _ Q Tj) as Gj.
    set (di := nth (bj i) dblk 0%nat) in *. set (dj := nth (bj j) dblk 0%nat) in *. set (li := nth (bj i) lblk 0%nat) in *. set (lj := nth (bj j) lblk 0%nat) in *.
    set (ti := nth (bp i) t 0%nat) in *. set (tj := nth (bp j) t 0%nat) in *.
    set (ai := Z.of_nat (bi i * (Q * Q) + (ti * Q + di))). set (aj := Z.of_nat (bi j * (Q * Q) + (tj * Q + dj))).
    assert ((ai <= a < ai + Z.of_nat li)%Z \/ ~ (ai <= a < ai + Z.of_nat li)%Z) as [Ai|Ai] by lia; [|left; now apply daxpy_out].
    right. apply daxpy_out. intros Aj. apply Ne.
    assert (Eb : bi i = bi j).
    { destruct (Nat.lt_trichotomy (bi i) (bi j)) as [C|[C|C]]; [|exact C|]; pose proof (sub_lt_nat _ _ (Q * Q) C) as G; unfold ai, aj in *; lia. }
    assert (Et : ti = tj).
    { destruct (Nat.lt_trichotomy ti tj) as [C|[C|C]]; [|exact C|]; pose proof (sub_lt_nat _ _ Q C) as G; unfold ai, aj in *; rewrite Eb in *; lia. }
    assert (Ep : bp i = bp j) by (apply (proj1 (NoDup_nth t 0%nat) Hnd); [rewrite Hlen; exact Pi|rewrite Hlen; exact Pj|exact Et]).
    assert (Ej : bj i = bj j) by (apply (blocks_disjoint (bj i) (bj j) (Z.to_nat a - (bi i * (Q * Q) + ti * Q))%nat Mi Mj); fold di dj li lj; unfold ai, aj in *; rewrite Eb, Et in *; lia).
    unfold bi, bp, bj in Eb, Ep, Ej. rewrite (Nat.div_mod i (P * L)), (Nat.div_mod j (P * L)) by lia. rewrite Eb. f_equal.
    rewrite (Nat.div_mod (i mod (P * L)) L), (Nat.div_mod (j mod (P * L)) L) by lia. now rewrite Ep, Ej.
  Qed.
  End Iter2.
End Sum.
