(** contract_sladder applies the spin ladder operators of Fock space. *)
From Coq Require Import List Bool Arith NArith ZArith Reals Lia Lra Btauto.
From Verif Require Import Base Star FockSpec FockFacts DetModel DetFacts HalfSpec HalfFacts LsisUpdModel SmultSpec LadderSpec LadderModel LadderStr.
Import ListNotations.
Local Open Scope nat_scope.

Lemma par_count {X} (f : X -> bool) l : parity f l = Nat.odd (count (map f l)).
Proof.
  induction l as [|x l IH]; [reflexivity|]. change (parity f (x :: l)) with (xorb (f x) (parity f l)). rewrite IH. cbn [map count].
  rewrite Nat.odd_add. destruct (f x); reflexivity.
Qed.
Lemma skipn_seq k : forall a n, skipn k (seq a n) = seq (a + k) (n - k).
Proof.
  induction k as [|k IH]; intros a n; [cbn [skipn]; f_equal; lia|]. destruct n as [|n]; [reflexivity|]. cbn [seq skipn]. rewrite IH. f_equal; lia.
Qed.
Lemma skipn_map' {X Y} (f : X -> Y) k : forall l, skipn k (map f l) = map f (skipn k l).
Proof. induction k as [|k IH]; intros [|x l]; cbn [skipn map]; auto. Qed.
Lemma n_above_bits d from n p : n_above (bits d from n) p = count (map (bt d) (seq (from + S p) (n - S p))).
Proof.
  unfold n_above, bits. rewrite skipn_map', skipn_seq. cbn [Nat.add]. generalize (n - S p). intros k. generalize (S p). intros a.
  f_equal. revert a. induction k as [|k IH]; intros a; [reflexivity|]. cbn [seq map]. rewrite IH, Nat.add_succ_r. reflexivity.
Qed.
Lemma above_dn n d p : p < n -> above (2 * n) d (p + n) = Nat.odd (n_above (bits d n n) p).
Proof. intros H. unfold above. rewrite par_count, n_above_bits. do 3 f_equal. f_equal; lia. Qed.
Lemma above_up n d p : p < n -> above (2 * n) d p = xorb (Nat.odd (n_above (bits d 0 n) p)) (Nat.odd (count (bits d n n))).
Proof.
  intros H. unfold above. rewrite par_count, n_above_bits. replace (2 * n - S p) with ((n - S p) + n) by lia. rewrite seq_app, map_app, DetFacts.count_app, Nat.odd_add.
  replace (S p + (n - S p)) with n by lia. change (0 + S p) with (S p). apply f_equal. apply (f_equal (fun l => Nat.odd (count l))). unfold bits. clear H p. 
  assert (G : forall k a, map (bt d) (seq (n + a) k) = map (fun k => bt d (n + k)) (seq a k)).
  { induction k as [|k IH]; intros a; [reflexivity|]. cbn [seq map]. rewrite <- IH, Nat.add_succ_r. reflexivity. }
  rewrite <- (G n 0), Nat.add_0_r. reflexivity.
Qed.
Lemma nth_put i b s j : nth j (put i b s) false = if (i =? j) && (i <? length s) then b else nth j s false.
Proof.
  unfold put. revert i j. induction s as [|x s IH]; intros [|i] [|j]; cbn [upd nth length Nat.eqb andb]; try reflexivity.
  - rewrite andb_false_r. reflexivity.
  - rewrite IH. reflexivity.
Qed.
Lemma nth_bits d from n j : j < n -> nth j (bits d from n) false = bt d (from + j).
Proof. intros H. unfold bits. apply nth_error_nth. apply (map_nth_error (fun k => bt d (from + k))). rewrite (nth_error_nth' _ 0) by (rewrite seq_length; exact H). rewrite seq_nth by exact H. reflexivity. Qed.
Lemma bits_put d e from n i b : i < n -> (forall q, bt e q = if q =? from + i then b else bt d q) -> bits e from n = put i b (bits d from n).
Proof.
  intros Hi H. apply (nth_ext _ _ false false); [rewrite put_length, !bits_length; reflexivity|]. intros j Hj. rewrite bits_length in Hj.
  rewrite nth_put, !nth_bits, bits_length, H by exact Hj. apply Nat.ltb_lt in Hi. rewrite Hi, andb_true_r.
  destruct (Nat.eqb_spec i j) as [->|E]; [rewrite Nat.eqb_refl; reflexivity|]. destruct (Nat.eqb_spec (from + j) (from + i)); [lia|reflexivity].
Qed.
Lemma bits_same d e from n q : (q < from \/ from + n <= q) -> (forall r, r <> q -> bt e r = bt d r) -> bits e from n = bits d from n.
Proof. intros Hq H. apply bits_ext. intros k Hk. apply H. lia. Qed.
Lemma occ_bits d from n i : i < n -> occ (bits d from n) i = bt d (from + i).
Proof. apply nth_bits. Qed.

Local Open Scope R_scope.
Lemma sg_R (b : bool) (x : R) : sg Rs b x = (if b then -1 else 1) * x.
Proof. unfold sg. destruct b; cbn; lra. Qed.
Lemma IZR_sgn k : IZR (sgnZ k) = if Nat.odd k then -1 else 1. Proof. unfold sgnZ. destruct (Nat.odd k); reflexivity. Qed.
Lemma RS_scale {X} (l : list X) (x : R) (f : X -> R) : x * bsum (K := Rs) l f = bsum (K := Rs) l (fun i => x * f i).
Proof. exact (@bsum_mul_l Rs _ l x f). Qed.

Lemma bt_cb' d q r : bt (cb d q) r = if (r =? q)%nat then false else bt d r.
Proof. rewrite bt_cb, (Nat.eqb_sym r q). destruct (q =? r)%nat; reflexivity. Qed.
Lemma bt_sb' d q r : bt (sb d q) r = if (r =? q)%nat then true else bt d r.
Proof. rewrite bt_sb, (Nat.eqb_sym r q). destruct (q =? r)%nat; reflexivity. Qed.
Lemma count_put1 i b s : (i < length s)%nat -> occ s i = negb b -> (count (put i b s) + b2n (negb b) = count s + b2n b)%nat.
Proof. intros H E. pose proof (count_put i b s H) as Q. rewrite E in Q. exact Q. Qed.

Definition lad (n : nat) (raise : bool) : vec Rs -> vec Rs := if raise then Splus Rs n else Sminus Rs n.
Lemma odd_pred k : (1 <= k)%nat -> Nat.odd (k - 1) = negb (Nat.odd k).
Proof. intros H. destruct k as [|k]; [lia|]. cbn [Nat.sub]. rewrite Nat.sub_0_r, Nat.odd_succ, <- Nat.negb_odd, negb_involutive. reflexivity. Qed.
Lemma odd_s k : Nat.odd (k + 1) = negb (Nat.odd k).
Proof. rewrite Nat.add_1_r, Nat.odd_succ, Nat.negb_odd. reflexivity. Qed.


Definition hop (n : nat) (raise : bool) (p : nat) (v : vec Rs) : vec Rs := if raise then cre Rs (2 * n) p (ann Rs (2 * n) (p + n) v) else cre Rs (2 * n) (p + n) (ann Rs (2 * n) p v).
Lemma hop_term n raise p v e : (p < n)%nat -> exists e', bits e' 0 n = put p (negb raise) (bits e 0 n) /\ bits e' n n = put p raise (bits e n n) /\
  hop n raise p v e = if (Bool.eqb (occ (bits e 0 n) p) (negb raise) || Bool.eqb (occ (bits e n n) p) raise)%bool then 0 else
    (if xorb (xorb (Nat.odd (n_above (bits e 0 n) p)) (Nat.odd (n_above (bits e n n) p))) (xorb (Nat.odd (count (bits e n n))) (negb raise)) then -1 else 1) * v e'.
Proof.
  intros Hp. unfold hop. rewrite !occ_bits by exact Hp. rewrite Nat.add_0_l, (Nat.add_comm n p). destruct raise; cbn [negb].
  - exists (sb (cb e p) (p + n)). set (e' := sb (cb e p) (p + n)).
    assert (B1 : bits (cb e p) n n = bits e n n) by (apply (bits_same _ _ _ _ p); [lia|]; intros r Hr; rewrite bt_cb'; destruct (Nat.eqb_spec r p); [lia|reflexivity]).
    split; [|split].
    + transitivity (bits (cb e p) 0 n); [apply (bits_same _ _ _ _ (p + n)); [lia|]; intros r Hr; unfold e'; rewrite bt_sb'; destruct (Nat.eqb_spec r (p + n)); [lia|reflexivity]|].
      apply bits_put; [lia|]. intros q. rewrite bt_cb', Nat.add_0_l. reflexivity.
    + rewrite <- B1. apply bits_put; [lia|]; intros q; unfold e'; rewrite bt_sb', (Nat.add_comm p n); reflexivity.
    + unfold cre, ann. destruct (bt e p) eqn:Ep; [|reflexivity]. rewrite bt_cb'. cbn [Bool.eqb orb]. destruct (Nat.eqb_spec (p + n) p); [lia|]. destruct (bt e (p + n)); cbn [Bool.eqb]; [rewrite sg_R; cbn; lra|].
      fold e'. rewrite !sg_R, above_up, above_dn, B1 by exact Hp. rewrite xorb_false_r.
      destruct (Nat.odd (n_above (bits e 0 n) p)), (Nat.odd (n_above (bits e n n) p)), (Nat.odd (count (bits e n n))); cbn [xorb]; lra.
  - exists (sb (cb e (p + n)) p). set (e' := sb (cb e (p + n)) p).
    assert (B1 : bits (cb e (p + n)) 0 n = bits e 0 n) by (apply (bits_same _ _ _ _ (p + n)); [lia|]; intros r Hr; rewrite bt_cb'; destruct (Nat.eqb_spec r (p + n)); [lia|reflexivity]).
    assert (B2 : bits (cb e (p + n)) n n = put p false (bits e n n)) by (apply bits_put; [lia|]; intros q; rewrite bt_cb', (Nat.add_comm p n); reflexivity).
    split; [|split].
    + rewrite <- B1. apply bits_put; [lia|]; intros q; unfold e'; rewrite bt_sb', Nat.add_0_l; reflexivity.
    + rewrite <- B2. apply (bits_same _ _ _ _ p); [lia|]; intros r Hr; unfold e'; rewrite bt_sb'; destruct (Nat.eqb_spec r p); [lia|reflexivity].
    + unfold cre, ann. destruct (bt e (p + n)) eqn:Ep; [|rewrite orb_true_r; reflexivity]. rewrite bt_cb'. cbn [Bool.eqb]. destruct (Nat.eqb_spec p (p + n)); [lia|]. destruct (bt e p); cbn [Bool.eqb orb]; [rewrite sg_R; cbn; lra|].
      fold e'. rewrite !sg_R, above_dn, above_up, B1, B2 by exact Hp.
      pose proof (count_put1 p false (bits e n n) ltac:(rewrite bits_length; lia) ltac:(rewrite occ_bits by lia; rewrite Nat.add_comm; exact Ep)) as Qb. cbn in Qb. rewrite <- (Nat.add_0_r (count (bits e n n))), <- Qb, odd_s.
      destruct (Nat.odd (n_above (bits e 0 n) p)), (Nat.odd (n_above (bits e n n) p)), (Nat.odd (count (put p false (bits e n n)))); cbn [xorb negb]; lra.
Qed.
Lemma lad_hop n raise v e : lad n raise v e = bsum (K := Rs) (seq 0 n) (fun p => hop n raise p v e).
Proof. unfold lad, Splus, Sminus, hop. destruct raise; reflexivity. Qed.

(** the electrons after the operator *)
Lemma hop_counts n ne raise p (A B : det) : (p < n)%nat -> length A = n -> length B = n -> vacuum n ne raise = false ->
  (Bool.eqb (occ A p) (negb raise) || Bool.eqb (occ B p) raise)%bool = false ->
  ((count (put p (negb raise) A) =? fst ne) && (count (put p raise B) =? snd ne))%nat = ((count A =? fst (ne1 ne raise)) && (count B =? snd (ne1 ne raise)))%nat.
Proof.
  intros Hp HA HB Hv H. apply orb_false_iff in H as [H1 H2].
  pose proof (count_put1 p (negb raise) A ltac:(lia)) as Qa. pose proof (count_put1 p raise B ltac:(lia)) as Qb.
  specialize (Qa ltac:(destruct (occ A p), raise; cbn in *; congruence)). specialize (Qb ltac:(destruct (occ B p), raise; cbn in *; congruence)).
  unfold ne1, kt, vacuum in *. cbn [fst snd] in *. destruct ne as [na nb]. cbn [fst snd] in *.
  apply eq_iff_eq_true. rewrite !andb_true_iff, !Nat.eqb_eq. destruct raise; cbn [negb b2n] in *; apply orb_false_iff in Hv as [V1 V2]; apply Nat.eqb_neq in V1, V2; lia.
Qed.

(** the array returned stands for S- or S+ applied to the vector given *)
Lemma contract_fock c n ne raise c1 : a_r c = num_strings n (fst ne) -> a_c c = num_strings n (snd ne) -> contract_sladder c n ne raise = Ok c1 -> vacuum n ne raise = false ->
  forall e, ci_state n (ne1 ne raise) (a_el c1) e = lad n raise (ci_state n ne (a_el c)) e.
Proof.
  intros Hr Hc Ec Hv e. destruct (contract_spec c n ne raise Hr Hc) as (c2 & E2 & H2). rewrite Ec in E2. injection E2 as <-. rewrite Hv in H2. destruct H2 as (_ & _ & H2).
  rewrite lad_hop. set (A := bits e 0 n). set (B := bits e n n). specialize (H2 A B (bits_length _ _ _) (bits_length _ _ _)).
  assert (LA : length A = n) by apply bits_length. assert (LB : length B = n) by apply bits_length.
  destruct ((count A =? fst (ne1 ne raise)) && (count B =? snd (ne1 ne raise)))%nat eqn:EC.
  - pose proof EC as EC'. apply andb_true_iff in EC' as [C1 C2]. apply Nat.eqb_eq in C1, C2. unfold ci_state at 1. fold A B. cbv zeta. rewrite EC, sg_R, H2 by assumption.
    rewrite RS_scale. apply (@bsum_ext Rs). intros p Hp. apply in_seq in Hp. destruct (hop_term n raise p (ci_state n ne (a_el c)) e ltac:(lia)) as (e' & BA & BB & ->).
    fold A B. destruct (Bool.eqb (occ A p) (negb raise) || Bool.eqb (occ B p) raise)%bool eqn:Eo; [cbn; lra|].
    unfold ci_state. rewrite BA, BB. fold A B. cbv zeta. rewrite (hop_counts n ne raise p A B), EC by (auto; lia). rewrite sg_R, !IZR_sgn.
    set (x := a_el c _ _). rewrite C2. unfold ne1, kt, vacuum in *. cbn [fst snd] in *. destruct ne as [na nb]. cbn [fst snd] in *.
    destruct raise; cbn [negb] in *; apply orb_false_iff in Hv as [V1 V2]; apply Nat.eqb_neq in V1, V2.
    + rewrite odd_s, odd_pred by lia. destruct (Nat.odd na), (Nat.odd nb), (Nat.odd (n_above A p)), (Nat.odd (n_above B p)); cbn [negb andb xorb]; lra.
    + rewrite odd_s, odd_pred by lia. destruct (Nat.odd na), (Nat.odd nb), (Nat.odd (n_above A p)), (Nat.odd (n_above B p)); cbn [negb andb xorb]; lra.
  - unfold ci_state at 1. fold A B. cbv zeta. rewrite EC. symmetry. apply (@bsum_0 Rs). intros p Hp. apply in_seq in Hp.
    destruct (hop_term n raise p (ci_state n ne (a_el c)) e ltac:(lia)) as (e' & BA & BB & ->).
    fold A B. destruct (Bool.eqb (occ A p) (negb raise) || Bool.eqb (occ B p) raise)%bool eqn:Eo; [reflexivity|].
    unfold ci_state. rewrite BA, BB. fold A B. cbv zeta. rewrite (hop_counts n ne raise p A B), EC by (auto; lia). cbn. lra.
Qed.
(** without electrons or room the operator gives nothing *)
Lemma vacuum_fock n ne raise (c : nat -> nat -> R) e : vacuum n ne raise = true -> lad n raise (ci_state n ne c) e = 0.
Proof.
  intros Hv. rewrite lad_hop. apply (@bsum_0 Rs). intros p Hp. apply in_seq in Hp. destruct (hop_term n raise p (ci_state n ne c) e ltac:(lia)) as (e' & BA & BB & ->).
  set (A := bits e 0 n) in *. set (B := bits e n n) in *. assert (LA : length A = n) by apply bits_length. assert (LB : length B = n) by apply bits_length.
  destruct (Bool.eqb (occ A p) (negb raise) || Bool.eqb (occ B p) raise)%bool eqn:Eo; [reflexivity|]. apply orb_false_iff in Eo as [H1 H2].
  unfold ci_state. rewrite BA, BB. cbv zeta.
  pose proof (count_put1 p (negb raise) A ltac:(lia) ltac:(destruct (occ A p), raise; cbn in *; congruence)) as Qa. pose proof (count_put1 p raise B ltac:(lia) ltac:(destruct (occ B p), raise; cbn in *; congruence)) as Qb.
  pose proof (DetFacts.count_le A). pose proof (DetFacts.count_le B).
  destruct ((count (put p (negb raise) A) =? fst ne) && (count (put p raise B) =? snd ne))%nat eqn:E; [|cbn; lra].
  exfalso. apply andb_true_iff in E as [E1 E2]. apply Nat.eqb_eq in E1, E2. destruct ne as [na nb]. unfold vacuum in Hv. cbn [fst snd] in *.
  destruct raise; cbn [negb b2n] in *; apply orb_true_iff in Hv as [V|V]; apply Nat.eqb_eq in V; lia.
Qed.
