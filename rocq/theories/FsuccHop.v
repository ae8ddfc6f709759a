(** FSUCCfullhop and FSUCCcontractS2 against the operators they evaluate. *)
From Coq Require Import List NArith ZArith Arith Bool Lia Ring Sorting.Permutation.
From Verif Require Import Star FockSpec FockFacts FsuccModel FsuccFacts FsuccProofs FockOps.
Import ListNotations.


Lemma triang n : (n * (n + 1) / 2 * 2 = n * (n + 1))%nat.
Proof.
  assert (E : exists k, n * (n + 1) = 2 * k).
  { induction n as [|n [k IH]]; [now exists 0|]. exists (k + S n). lia. }
  destruct E as [k E]. rewrite E. rewrite Nat.mul_comm, (Nat.mul_comm 2 k), Nat.div_mul by lia. lia.
Qed.
Lemma triang_S n : (S n * (S n + 1) / 2 = n * (n + 1) / 2 + S n)%nat.
Proof. pose proof (triang n). pose proof (triang (S n)). lia. Qed.
Lemma triang_mono n k : (n <= k -> n * (n + 1) / 2 <= k * (k + 1) / 2)%nat.
Proof. induction 1; [lia|]. rewrite triang_S. lia. Qed.
Lemma unpack_inv fuel : forall p q, (q <= fuel)%nat ->
  let '(p', q') := unpack_tril fuel p q in (q' <= p' /\ p' * (p' + 1) / 2 + q' = p * (p + 1) / 2 + q)%nat.
Proof.
  induction fuel as [|f IH]; intros p q H; cbn [unpack_tril]; [split; lia|].
  destruct (Nat.ltb_spec p q); [|split; [lia|reflexivity]].
  specialize (IH (S p) (q - S p)%nat ltac:(lia)). destruct (unpack_tril f (S p) (q - S p)) as [p' q'].
  destruct IH as [I1 I2]. split; [assumption|]. rewrite I2, triang_S. lia.
Qed.
Lemma unpack_at n q : (q <= n)%nat -> unpack_tril (n * (n + 1) / 2 + q) 0 (n * (n + 1) / 2 + q) = (n, q).
Proof.
  intros Hq. pose proof (unpack_inv (n * (n + 1) / 2 + q) 0 (n * (n + 1) / 2 + q) (Nat.le_refl _)) as H.
  destruct (unpack_tril _ 0 _) as [p' q']. destruct H as [H1 H2]. cbn [Nat.mul] in H2. rewrite Nat.div_0_l in H2 by lia.
  destruct (Nat.lt_trichotomy p' n) as [L|[->|L]].
  - pose proof (triang_mono (S p') n ltac:(lia)). rewrite triang_S in *. lia.
  - f_equal. lia.
  - pose proof (triang_mono (S n) p' ltac:(lia)). rewrite triang_S in *. lia.
Qed.

Section Hop.
Variable K : star_ring.
Add Ring Kring : (sring K).
Local Open Scope star_scope.
Notation exop := (exop K). Notation vec := (vec K). Notation cre := (cre K). Notation ann := (ann K).
Variable is0 : K -> bool.
Hypothesis is0_ok : forall x : K, is0 x = true -> x = s0.
Variable sched : list N -> list N.
Hypothesis sched_ok : forall l, Permutation (sched l) l.

(** [F] adds [w] to the array it is given, and touches nothing beyond it *)
Definition adds (m : nat) (F : vec -> option vec) (w : vec) : Prop :=
  forall h, exists r, F h = Some r /\ (forall e, (e < 2 ^ N.of_nat m)%N -> r e = h e + w e)
    /\ (forall e, ~ (e < 2 ^ N.of_nat m)%N -> r e = h e).

Lemma foldO_adds {A} m (f : A -> vec -> option vec) (w : A -> vec) l :
  (forall x, In x l -> adds m (f x) (w x)) -> adds m (foldO f l) (fun e => bsum l (fun x => w x e)).
Proof.
  induction l as [|x l IH]; intros H h.
  - exists h. split; [reflexivity|]. split; [intros; cbn; ring|reflexivity].
  - destruct (H x (or_introl eq_refl) h) as [r [E [R1 R2]]].
    destruct (IH ltac:(intros; apply H; now right) r) as [r' [E' [R1' R2']]].
    exists r'. split.
    + unfold foldO. cbn [fold_left bindO]. rewrite E. exact E'.
    + split; [intros e He; rewrite R1', R1 by assumption; cbn; ring|intros e He; now rewrite R2', R2].
Qed.
Lemma adds_ext m F (w w' : vec) : adds m F w -> (forall e, w e = w' e) -> adds m F w'.
Proof. intros H E h. destruct (H h) as [r [E' [R1 R2]]]. exists r. split; [assumption|]. split; [intros; now rewrite <- E, R1|assumption]. Qed.

Lemma contract1g_adds m a i (g : K) psi : (m < 31)%nat -> Forall (fun q => (q < m)%nat) a -> Forall (fun q => (q < m)%nat) i ->
  adds m (contract1g K is0 sched m a i g psi) (fun e => g * exop m a i psi e).
Proof. intros Hm Ha Hi h. exact (contract1g_spec K is0 is0_ok sched sched_ok m a i Hm Ha Hi g psi h). Qed.

(** sum over a packed triangle, each off-diagonal pair both ways round *)
Lemma bsum_tri (f : nat -> nat -> nat -> K) : forall n,
  bsum (seq 0 (n * (n + 1) / 2)) (fun k =>
     let '(p, q) := unpack_tril k 0 k in
     bsum (seq 0 (2 - (if (p =? q)%nat then 1 else 0))) (fun t => f k (nth (0 + t) [p; q] 0%nat) (nth (1 - t) [p; q] 0%nat)))
  = bsum (seq 0 n) (fun p => bsum (seq 0 n) (fun q => f (tri p q) p q)).
Proof.
  induction n as [|n IH]; [reflexivity|]. rewrite triang_S, seq_app, bsum_app, IH, Nat.add_0_l.
  assert (E : bsum (seq (n * (n + 1) / 2) (S n)) (fun k =>
     let '(p, q) := unpack_tril k 0 k in
     bsum (seq 0 (2 - (if (p =? q)%nat then 1 else 0))) (fun t => f k (nth (0 + t) [p; q] 0%nat) (nth (1 - t) [p; q] 0%nat)))
    = bsum (seq 0 n) (fun q => f (tri n q) n q + f (tri q n) q n) + f (tri n n) n n).
  { transitivity (bsum (map (Nat.add (n * (n + 1) / 2)) (seq 0 (S n))) (fun k =>
     let '(p, q) := unpack_tril k 0 k in
     bsum (seq 0 (2 - (if (p =? q)%nat then 1 else 0))) (fun t => f k (nth (0 + t) [p; q] 0%nat) (nth (1 - t) [p; q] 0%nat)))).
    { f_equal. clear. generalize (n * (n + 1) / 2)%nat as z. generalize (S n) as k. intros k z. 
      apply nth_ext with (d := 0%nat) (d' := (z + 0)%nat); [now rewrite map_length, !seq_length|]. rewrite seq_length. intros j Hj.
      rewrite map_nth, !seq_nth by assumption. reflexivity. }
    rewrite bsum_map, seq_S, bsum_app. f_equal.
    - apply bsum_ext. intros q Hq. apply in_seq in Hq. rewrite unpack_at by lia. destruct (Nat.eqb_spec n q); [lia|].
      cbn [Nat.sub seq bsum Nat.add nth]. unfold tri. rewrite (Nat.max_comm q n), (Nat.min_comm q n), Nat.max_l, Nat.min_r by lia. ring.
    - cbn [bsum Nat.add]. rewrite unpack_at by lia. rewrite Nat.eqb_refl. cbn [Nat.sub seq bsum Nat.add nth]. unfold tri. rewrite Nat.max_id, Nat.min_id. ring. }
  rewrite E. rewrite bsum_add. rewrite seq_S, bsum_app. cbn [bsum Nat.add]. rewrite bsum_app. cbn [bsum].
  transitivity (bsum (seq 0 n) (fun p => bsum (seq 0 n) (fun q => f (tri p q) p q) + f (tri p n) p n) + (bsum (seq 0 n) (fun q => f (tri n q) n q) + f (tri n n) n n)).
  { rewrite bsum_add. ring. }
  match goal with |- ?x + _ = ?y + _ => assert (E1 : x = y) end.
  { apply bsum_ext. intros p _. rewrite bsum_app. cbn [bsum]. ring. }
  rewrite E1. ring.
Qed.

Lemma dest_lt norb p q s : (p < norb)%nat -> (s < 2)%nat -> (dest norb (p, q, s) < 2 * norb)%nat.
Proof. intros. cbn [dest]. assert (s = 0 \/ s = 1)%nat as [-> | ->] by lia; lia. Qed.
Lemma tuples_len {A} (l : list A) n : forall x, In x (tuples l n) -> length x = n.
Proof.
  induction n as [|n IH]; intros x; cbn [tuples].
  - intros [<-|[]]. reflexivity.
  - intros H. apply in_flat_map in H. destruct H as [y [_ H]]. apply in_map_iff in H. destruct H as [z [<- H]]. cbn [length]. now rewrite (IH z H).
Qed.

Lemma fullhop_adds norb hop psi : (2 * norb < 31)%nat -> forall rest off pidx qidx,
  Forall (fun q => (q < 2 * norb)%nat) pidx -> Forall (fun q => (q < 2 * norb)%nat) qidx ->
  adds (2 * norb) (fullhop_ K is0 sched hop psi norb rest off pidx qidx)
    (fun e => bsum (tuples (moves norb) (S rest)) (fun l =>
       hop (off + flat (norb * (norb + 1) / 2) (map pair_of l))%nat
       * exop (2 * norb) (pidx ++ map (dest norb) l) (qidx ++ map (source norb) l) psi e)).
Proof.
  intros Hn. set (np := (norb * (norb + 1) / 2)%nat).
  assert (NP : forall k, (k < np)%nat -> let '(p, q) := unpack_tril k 0 k in (p < norb)%nat /\ (q < norb)%nat).
  { intros k Hk. pose proof (unpack_inv k 0 k (Nat.le_refl _)) as U. destruct (unpack_tril k 0 k) as [p q]. destruct U as [U1 U2].
    cbn [Nat.mul] in U2. rewrite Nat.div_0_l in U2 by lia. assert (p < norb)%nat; [|lia].
    destruct (Nat.lt_ge_cases p norb); [assumption|]. pose proof (triang_mono norb p ltac:(assumption)). unfold np in Hk. lia. }
  assert (RE : forall F : nat -> nat -> nat -> nat -> K,
    bsum (seq 0 np) (fun k => let '(p, q) := unpack_tril k 0 k in
       bsum (seq 0 (2 - (if (p =? q)%nat then 1 else 0))) (fun t => bsum (seq 0 2) (fun s => F k (nth (0 + t) [p; q] 0%nat) (nth (1 - t) [p; q] 0%nat) s)))
    = bsum (moves norb) (fun m => let '(p, q, s) := m in F (tri p q) p q s)).
  { intros F. unfold np. rewrite (bsum_tri (fun k p q => bsum (seq 0 2) (fun s => F k p q s))). unfold moves.
    rewrite bsum_flat_map. apply bsum_ext. intros p _. rewrite bsum_flat_map. apply bsum_ext. intros q _. rewrite bsum_map. reflexivity. }
  induction rest as [|rest IH]; intros off pidx qidx Hp Hq.
  - cbn [fullhop_]. fold np. eapply adds_ext.
    + apply (foldO_adds (2 * norb) _ (fun k => let '(p, q) := unpack_tril k 0 k in fun e =>
         bsum (seq 0 (2 - (if (p =? q)%nat then 1 else 0))) (fun t => bsum (seq 0 2) (fun s => hop (off + k)%nat *
            exop (2 * norb) (pidx ++ [(nth (0 + t) [p; q] 0 + s * norb)%nat]) (qidx ++ [(nth (1 - t) [p; q] 0 + s * norb)%nat]) psi e)))).
      intros k Hk. apply in_seq in Hk. specialize (NP k ltac:(lia)). destruct (unpack_tril k 0 k) as [p q]. destruct NP as [P1 P2].
      apply (foldO_adds (2 * norb) _ (fun t e => bsum (seq 0 2) (fun s => hop (off + k)%nat *
            exop (2 * norb) (pidx ++ [(nth (0 + t) [p; q] 0 + s * norb)%nat]) (qidx ++ [(nth (1 - t) [p; q] 0 + s * norb)%nat]) psi e))).
      intros t Ht. apply in_seq in Ht.
      apply (foldO_adds (2 * norb) _ (fun s e => hop (off + k)%nat *
            exop (2 * norb) (pidx ++ [(nth (0 + t) [p; q] 0 + s * norb)%nat]) (qidx ++ [(nth (1 - t) [p; q] 0 + s * norb)%nat]) psi e)).
      intros s Hs. apply in_seq in Hs. 
      assert (T : (t = 0 \/ t = 1)%nat) by (destruct (p =? q)%nat; lia).
      assert (S' : (s = 0 \/ s = 1)%nat) by lia.
      apply contract1g_adds; [assumption| |]; apply Forall_app; (split; [assumption|]); constructor; [|constructor| |constructor];
        destruct T as [-> | ->], S' as [-> | ->]; cbn [Nat.add Nat.sub nth]; lia.
    + intros e. cbv beta. transitivity (bsum (seq 0 np) (fun k => let '(p, q) := unpack_tril k 0 k in
         bsum (seq 0 (2 - (if (p =? q)%nat then 1 else 0))) (fun t => bsum (seq 0 2) (fun s => hop (off + k)%nat *
            exop (2 * norb) (pidx ++ [(nth (0 + t) [p; q] 0 + s * norb)%nat]) (qidx ++ [(nth (1 - t) [p; q] 0 + s * norb)%nat]) psi e)))).
      { apply bsum_ext. intros k _. destruct (unpack_tril k 0 k). reflexivity. }
      rewrite (RE (fun k p q s => hop (off + k)%nat * exop (2 * norb) (pidx ++ [(p + s * norb)%nat]) (qidx ++ [(q + s * norb)%nat]) psi e)).
      cbn [tuples map]. rewrite bsum_flat_map. apply bsum_ext. intros [[p q] s] _. cbn [bsum map pair_of dest source flat length Nat.pow].
      rewrite Nat.mul_1_r, Nat.add_0_r. ring.
  - cbn [fullhop_]. fold np. eapply adds_ext.
    + apply (foldO_adds (2 * norb) _ (fun k => let '(p, q) := unpack_tril k 0 k in fun e =>
         bsum (seq 0 (2 - (if (p =? q)%nat then 1 else 0))) (fun t => bsum (seq 0 2) (fun s => 
           bsum (tuples (moves norb) (S rest)) (fun l => hop (off + k * np ^ S rest + flat np (map pair_of l))%nat *
            exop (2 * norb) ((pidx ++ [(nth (0 + t) [p; q] 0 + s * norb)%nat]) ++ map (dest norb) l)
                ((qidx ++ [(nth (1 - t) [p; q] 0 + s * norb)%nat]) ++ map (source norb) l) psi e))))).
      intros k Hk. apply in_seq in Hk. specialize (NP k ltac:(lia)). destruct (unpack_tril k 0 k) as [p q]. destruct NP as [P1 P2].
      apply (foldO_adds (2 * norb) _ (fun t e => bsum (seq 0 2) (fun s => 
           bsum (tuples (moves norb) (S rest)) (fun l => hop (off + k * np ^ S rest + flat np (map pair_of l))%nat *
            exop (2 * norb) ((pidx ++ [(nth (0 + t) [p; q] 0 + s * norb)%nat]) ++ map (dest norb) l)
                ((qidx ++ [(nth (1 - t) [p; q] 0 + s * norb)%nat]) ++ map (source norb) l) psi e)))).
      intros t Ht. apply in_seq in Ht.
      apply (foldO_adds (2 * norb) _ (fun s e => 
           bsum (tuples (moves norb) (S rest)) (fun l => hop (off + k * np ^ S rest + flat np (map pair_of l))%nat *
            exop (2 * norb) ((pidx ++ [(nth (0 + t) [p; q] 0 + s * norb)%nat]) ++ map (dest norb) l)
                ((qidx ++ [(nth (1 - t) [p; q] 0 + s * norb)%nat]) ++ map (source norb) l) psi e))).
      intros s Hs. apply in_seq in Hs. 
      assert (T : (t = 0 \/ t = 1)%nat) by (destruct (p =? q)%nat; lia).
      assert (S' : (s = 0 \/ s = 1)%nat) by lia.
      apply IH; apply Forall_app; (split; [assumption|]); (constructor; [|constructor]);
        destruct T as [-> | ->], S' as [-> | ->]; cbn [Nat.add Nat.sub nth]; lia.
    + intros e. cbv beta. transitivity (bsum (seq 0 np) (fun k => let '(p, q) := unpack_tril k 0 k in
         bsum (seq 0 (2 - (if (p =? q)%nat then 1 else 0))) (fun t => bsum (seq 0 2) (fun s => 
           bsum (tuples (moves norb) (S rest)) (fun l => hop (off + k * np ^ S rest + flat np (map pair_of l))%nat *
            exop (2 * norb) ((pidx ++ [(nth (0 + t) [p; q] 0 + s * norb)%nat]) ++ map (dest norb) l)
                ((qidx ++ [(nth (1 - t) [p; q] 0 + s * norb)%nat]) ++ map (source norb) l) psi e))))).
      { apply bsum_ext. intros k _. destruct (unpack_tril k 0 k). reflexivity. }
      rewrite (RE (fun k p q s => bsum (tuples (moves norb) (S rest)) (fun l => hop (off + k * np ^ S rest + flat np (map pair_of l))%nat *
            exop (2 * norb) ((pidx ++ [(p + s * norb)%nat]) ++ map (dest norb) l)
                ((qidx ++ [(q + s * norb)%nat]) ++ map (source norb) l) psi e))).
      change (tuples (moves norb) (S (S rest))) with (flat_map (fun x => map (cons x) (tuples (moves norb) (S rest))) (moves norb)).
      rewrite bsum_flat_map. apply bsum_ext. intros [[p q] s] _. rewrite bsum_map. apply bsum_ext. intros l Hl.
      apply tuples_len in Hl. cbn [map pair_of dest source flat]. rewrite map_length, Hl, <- !app_assoc. cbn [app].
      do 2 f_equal. lia.
Qed.

(** ** the square of the spin *)
Variable half : K.
Hypothesis half_ok : half + half = s1.
Section Spin.
Variable norb : nat.
Hypothesis Hn : (2 * norb < 31)%nat.
Notation m := (2 * norb)%nat.

Notation num := (num K norb). Notation Sz := (Sz K half norb). Notation Splus := (Splus K norb). Notation Sminus := (Sminus K norb).
Notation Ssquare := (Ssquare K half norb).

Definition cnt (lo : nat) (e : N) : K := bsum (seq lo norb) (fun p => if bt e p then s1 else s0).
Lemma num_cnt lo (v : vec) e : num lo v e = cnt lo e * v e.
Proof.
  unfold FockSpec.num, cnt. rewrite bsum_mul_r. apply bsum_ext. intros p _. unfold FockSpec.cre, FockSpec.ann.
  destruct (bt e p) eqn:B; [|ring]. rewrite bt_cb, Nat.eqb_refl. cbn [negb andb orb]. rewrite ?andb_false_r; cbn [negb andb]. rewrite above_cb_same, sg_inv, sb_cb by assumption. ring.
Qed.

Lemma iter_add p : Pos.iter (sadd (@s1 K)) s0 (Pos.succ p) = s1 + Pos.iter (sadd s1) s0 p.
Proof. now rewrite Pos.iter_succ. Qed.
Lemma of_int_1 z : of_int K (z + 1) = of_int K z + s1.
Proof.
  destruct z as [|p|p].
  - cbn. ring.
  - cbn [Z.add of_int]. rewrite Pos.add_1_r, iter_add. ring.
  - destruct (Pos.succ_pred_or p) as [->|E]; [cbn; ring|]. rewrite <- E.
    replace (Z.neg (Pos.succ (Pos.pred p)) + 1)%Z with (Z.neg (Pos.pred p)) by lia. cbn [of_int]. rewrite iter_add. ring.
Qed.
Lemma of_int_nat n : forall z, of_int K (z + Z.of_nat n) = of_int K z + of_int K (Z.of_nat n).
Proof.
  induction n as [|n IH]; intros z; [rewrite Z.add_0_r; cbn; ring|].
  replace (Z.of_nat (S n)) with (Z.of_nat n + 1)%Z by lia. rewrite Z.add_assoc, !of_int_1, IH. ring.
Qed.
Lemma of_int_sub_nat z n : of_int K (z - Z.of_nat n) = of_int K z - of_int K (Z.of_nat n).
Proof. pose proof (of_int_nat n (z - Z.of_nat n)) as H. replace (z - Z.of_nat n + Z.of_nat n)%Z with z in H by lia. rewrite H. ring. Qed.
Lemma cntbits_spec lo e : exists k, cntbits lo norb e = Z.of_nat k /\ of_int K (Z.of_nat k) = cnt lo e.
Proof.
  unfold cntbits, cnt.
  assert (G : forall l z, (0 <= z)%Z -> exists k, fold_left (fun c q => (c + Z.of_N (N.shiftr (N.land e (bit q)) (N.of_nat q)))%Z) l z = Z.of_nat k /\
     of_int K (Z.of_nat k) = of_int K z + bsum l (fun p => if bt e p then s1 else s0)).
  { induction l as [|q l IH]; intros z Hz.
    - exists (Z.to_nat z). cbn [fold_left bsum]. rewrite Z2Nat.id by assumption. split; [reflexivity|ring].
    - cbn [fold_left bsum]. rewrite shift_land. destruct (bt e q); cbn [N.b2n].
      + destruct (IH (z + Z.of_N 1)%Z ltac:(lia)) as [k [E1 E2]]. exists k. split; [exact E1|]. rewrite E2. cbn [Z.of_N]. rewrite of_int_1. ring.
      + destruct (IH (z + Z.of_N 0)%Z ltac:(lia)) as [k [E1 E2]]. exists k. split; [exact E1|]. rewrite E2. cbn [Z.of_N]. rewrite Z.add_0_r. ring. }
  destruct (G (seq lo norb) 0%Z ltac:(lia)) as [k [E1 E2]]. exists k. split; [exact E1|]. rewrite E2. cbn. ring.
Qed.

Lemma cre_lin m' p (f : nat -> vec) l e : cre m' p (fun d => bsum l (fun x => f x d)) e = bsum l (fun x => cre m' p (f x) e).
Proof.
  unfold FockSpec.cre. destruct (bt e p); [|symmetry; now apply bsum_0]. destruct (above m' e p); cbn [sg]; [|reflexivity].
  induction l as [|x l IH]; cbn [bsum]; [ring|]. rewrite <- IH. ring.
Qed.
Lemma ann_lin m' p (f : nat -> vec) l e : ann m' p (fun d => bsum l (fun x => f x d)) e = bsum l (fun x => ann m' p (f x) e).
Proof.
  unfold FockSpec.ann. destruct (bt e p); [symmetry; now apply bsum_0|]. destruct (above m' e p); cbn [sg]; [|reflexivity].
  induction l as [|x l IH]; cbn [bsum]; [ring|]. rewrite <- IH. ring.
Qed.
Lemma cre_val m' p (u v : vec) e : (forall d, u d = v d) -> cre m' p u e = cre m' p v e.
Proof. intros H. unfold FockSpec.cre. now rewrite H. Qed.
Lemma cre_opp m' p (u : vec) e : cre m' p (fun d => - u d) e = - cre m' p u e.
Proof. unfold FockSpec.cre. destruct (bt e p); [apply sg_opp|ring]. Qed.
Lemma cre_sub m' p (u v : vec) e : cre m' p (fun d => u d - v d) e = cre m' p u e - cre m' p v e.
Proof. unfold FockSpec.cre. destruct (bt e p); [|ring]. destruct (above m' e p); cbn; ring. Qed.

(** the exchange operator a'(p') a'(q) a(p) a(q') with primes marking the upper spin *)
Definition flip (p q : nat) (v : vec) : vec := exop m [(p + norb)%nat; q] [(q + norb)%nat; p] v.

Lemma SmSp (v : vec) e : Sminus (Splus v) e = num norb v e - bsum (seq 0 norb) (fun p => bsum (seq 0 norb) (fun q => flip p q v e)).
Proof.
  unfold FockSpec.Sminus, FockSpec.Splus. 
  transitivity (bsum (seq 0 norb) (fun p => cre m (p + norb) (ann m (p + norb) v) e - bsum (seq 0 norb) (fun q => flip p q v e))).
  - apply bsum_ext. intros p Hp. apply in_seq in Hp.
    rewrite (cre_val m (p + norb) _ (fun d => bsum (seq 0 norb) (fun q => ann m p (cre m q (ann m (q + norb) v)) d)));
      [|intros d; apply (ann_lin m p (fun q => cre m q (ann m (q + norb) v)))].
    rewrite (cre_lin m (p + norb) (fun q => ann m p (cre m q (ann m (q + norb) v)))).
    transitivity (bsum (seq 0 norb) (fun q => (if (p =? q)%nat then cre m (p + norb) (ann m (p + norb) v) e else s0) + - s1 * flip p q v e)).
    + apply bsum_ext. intros q Hq. apply in_seq in Hq.
      rewrite (cre_val m (p + norb) _ (fun d => (if (p =? q)%nat then ann m (q + norb) v d else s0) - cre m q (ann m p (ann m (q + norb) v)) d)).
      2:{ intros d. rewrite <- (ann_cre K m p q (ann m (q + norb) v) d) by (lia). ring. }
      rewrite cre_sub. unfold flip, FockSpec.exop. cbn [creL annL].
      assert (E : cre m (p + norb) (fun d => if (p =? q)%nat then ann m (q + norb) v d else s0) e = if (p =? q)%nat then cre m (p + norb) (ann m (p + norb) v) e else s0).
      { destruct (Nat.eqb_spec p q) as [->|]; [reflexivity|]. unfold FockSpec.cre. destruct (bt e (p + norb)); [apply sg_0|reflexivity]. }
      rewrite E. ring.
    + rewrite bsum_add, <- bsum_mul_l. 
      rewrite (bsum_single K _ _ p); [rewrite Nat.eqb_refl; ring|apply seq_NoDup|apply in_seq; lia|].
      intros q Hq Hne. destruct (Nat.eqb_spec p q); [congruence|reflexivity].
  - transitivity (bsum (seq 0 norb) (fun p => cre m (p + norb) (ann m (p + norb) v) e) + - s1 * bsum (seq 0 norb) (fun p => bsum (seq 0 norb) (fun q => flip p q v e))).
    + rewrite bsum_mul_l, <- bsum_add. apply bsum_ext. intros p _. ring.
    + assert (E : num norb v e = bsum (seq 0 norb) (fun p => cre m (p + norb) (ann m (p + norb) v) e)); [|rewrite E; ring].
      unfold FockSpec.num. transitivity (bsum (map (fun p => (p + norb)%nat) (seq 0 norb)) (fun p => cre m p (ann m p v) e)); [|now rewrite bsum_map].
      f_equal. apply nth_ext with (d := 0%nat) (d' := (0 + norb)%nat); [now rewrite map_length, !seq_length|]. rewrite seq_length. intros j Hj.
      rewrite (map_nth (fun p => (p + norb)%nat)), !seq_nth by assumption. lia.
Qed.
Lemma SpSm (v : vec) e : Splus (Sminus v) e = num 0 v e - bsum (seq 0 norb) (fun p => bsum (seq 0 norb) (fun q => flip p q v e)).
Proof.
  unfold FockSpec.Sminus, FockSpec.Splus. rewrite (bsum_swap K (seq 0 norb) (seq 0 norb) (fun p q => flip p q v e)).
  transitivity (bsum (seq 0 norb) (fun p => cre m p (ann m p v) e - bsum (seq 0 norb) (fun q => flip q p v e))).
  - apply bsum_ext. intros p Hp. apply in_seq in Hp.
    rewrite (cre_val m p _ (fun d => bsum (seq 0 norb) (fun q => ann m (p + norb) (cre m (q + norb) (ann m q v)) d)));
      [|intros d; apply (ann_lin m (p + norb) (fun q => cre m (q + norb) (ann m q v)))].
    rewrite (cre_lin m p (fun q => ann m (p + norb) (cre m (q + norb) (ann m q v)))).
    transitivity (bsum (seq 0 norb) (fun q => (if (p =? q)%nat then cre m p (ann m p v) e else s0) + - s1 * flip q p v e)).
    + apply bsum_ext. intros q Hq. apply in_seq in Hq.
      rewrite (cre_val m p _ (fun d => (if (p =? q)%nat then ann m q v d else s0) - cre m (q + norb) (ann m (p + norb) (ann m q v)) d)).
      2:{ intros d. pose proof (ann_cre K m (p + norb) (q + norb) (ann m q v) d ltac:(lia) ltac:(lia)) as A.
          replace ((p + norb =? q + norb)%nat) with ((p =? q)%nat) in A.
          2:{ destruct (Nat.eqb_spec p q), (Nat.eqb_spec (p + norb) (q + norb)); try reflexivity; lia. }
          rewrite <- A. ring. }
      rewrite cre_sub. unfold flip, FockSpec.exop. cbn [creL annL].
      assert (E : cre m p (fun d => if (p =? q)%nat then ann m q v d else s0) e = if (p =? q)%nat then cre m p (ann m p v) e else s0).
      { destruct (Nat.eqb_spec p q) as [->|]; [reflexivity|]. unfold FockSpec.cre. destruct (bt e p); [apply sg_0|reflexivity]. }
      rewrite E. rewrite (cre_cre K m p (q + norb)) by (lia).
      assert (X : cre m (q + norb) (cre m p (ann m (p + norb) (ann m q v))) e = - cre m (q + norb) (cre m p (ann m q (ann m (p + norb) v))) e).
      { rewrite <- cre_opp. apply cre_val. intros d. rewrite <- cre_opp. apply cre_val. intros d'. apply ann_ann; lia. }
      rewrite X. ring.
    + rewrite bsum_add, <- bsum_mul_l. 
      rewrite (bsum_single K _ _ p); [rewrite Nat.eqb_refl; ring|apply seq_NoDup|apply in_seq; lia|].
      intros q Hq Hne. destruct (Nat.eqb_spec p q); [congruence|reflexivity].
  - transitivity (bsum (seq 0 norb) (fun p => cre m p (ann m p v) e) + - s1 * bsum (seq 0 norb) (fun p => bsum (seq 0 norb) (fun q => flip q p v e))).
    + rewrite bsum_mul_l, <- bsum_add. apply bsum_ext. intros p _. ring.
    + unfold FockSpec.num. ring.
Qed.

Lemma contractS2_spec (psi h : vec) :
  exists r, contractS2 K is0 sched half norb psi h = Some r /\
    (forall e, (e < 2 ^ N.of_nat m)%N -> r e = Ssquare psi e) /\ (forall e, ~ (e < 2 ^ N.of_nat m)%N -> r e = h e).
Proof.
  unfold contractS2. rewrite (proj2 (Nat.ltb_lt (2 * norb) 31) Hn). cbn [negb]. cbv zeta.
  match goal with |- context [fold_left ?f _ _] => set (step := f) end.
  destruct (fold_foot step (fun x => [x]) (nrange (bit m)) h (NoDup_nrange _)) as [F1 F2].
  { intros x _ s' e He. unfold step. apply wr_other. intros ->. apply He. now left. }
  { intros x _ s' s'' Hs e [<-|[]]. unfold step. now rewrite !wr_same. }
  { intros x y _ _ Hxy e [<-|[]] [E|[]]. congruence. }
  set (h1 := fold_left step (nrange (bit m)) h) in *. clearbody h1.
  destruct (foldO_adds m (fun p => foldO (fun q s2psi => contract1g K is0 sched m [(p + norb)%nat; q] [(q + norb)%nat; p] (- s1) psi s2psi) (seq 0 norb))
     (fun p e => bsum (seq 0 norb) (fun q => - s1 * flip p q psi e)) (seq 0 norb)) with (h := h1) as [r [E [R1 R2]]].
  { intros p Hp. apply in_seq in Hp. apply (foldO_adds m _ (fun q e => - s1 * flip p q psi e)). intros q Hq. apply in_seq in Hq.
    apply contract1g_adds; [exact Hn| |]; repeat (constructor; [lia|]); constructor. }
  exists r. split; [exact E|]. split.
  - intros e He. rewrite R1 by assumption. rewrite (F1 e); [|apply in_nrange; now rewrite bit_pow|now left]. unfold step. rewrite wr_same. unfold FockSpec.Ssquare, FockSpec.Sz. rewrite SpSm, SmSp.
    rewrite !num_cnt. cbn beta.
    destruct (cntbits_spec 0 e) as [ka [Ea Ca]], (cntbits_spec norb e) as [kb [Eb Cb]]. rewrite Ea, Eb, of_int_sub_nat, of_int_nat, Ca, Cb.
    assert (X : bsum (seq 0 norb) (fun p => bsum (seq 0 norb) (fun q => - s1 * flip p q psi e)) = - bsum (seq 0 norb) (fun p => bsum (seq 0 norb) (fun q => flip p q psi e))).
    { transitivity (bsum (seq 0 norb) (fun p => - s1 * bsum (seq 0 norb) (fun q => flip p q psi e))); [apply bsum_ext; intros; now rewrite bsum_mul_l|]. rewrite <- bsum_mul_l. ring. }
    rewrite X. generalize (bsum (seq 0 norb) (fun p => bsum (seq 0 norb) (fun q => flip p q psi e))) as y. intros y.
    transitivity ((cnt 0 e - cnt norb e) * half * ((cnt 0 e - cnt norb e) * half) * psi e + half * (cnt 0 e + cnt norb e) * psi e - (half + half) * y); [rewrite half_ok; ring|ring].
  - intros e He. rewrite R2 by assumption. apply F2. intros x Hx [Ex|[]]. subst x. apply He. rewrite <- bit_pow. now apply in_nrange.
Qed.
End Spin.
End Hop.
