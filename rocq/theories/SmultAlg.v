(** How matrix elements between multiplets depend on the projection: the closed forms of all tensor operators of rank up to two. *)
From Coq Require Import List Bool Arith ZArith Reals Lia Lra Psatz.
From Verif Require Import SmultSpec.
Import ListNotations.
Local Open Scope R_scope.

Section Pair.
  Variables (S' S : Z).
  (** matrix elements [u] of the commutator of S- (S+) with an operator that has the matrix elements [t] *)
  Definition commM (t u : Z -> Z -> R) : Prop := forall M' M, member S' M' -> member S M -> u M' M = up S' M' * t (M' + 2)%Z M - down S M * t M' (M - 2)%Z.
  Definition commP (t u : Z -> Z -> R) : Prop := forall M' M, member S' M' -> member S M -> u M' M = down S' M' * t (M' - 2)%Z M - up S M * t M' (M + 2)%Z.
End Pair.

Lemma hf_add a b : hf (a + b) = hf a + hf b. Proof. unfold hf. rewrite plus_IZR. lra. Qed.
Lemma hf_sub a b : hf (a - b) = hf a - hf b. Proof. unfold hf. rewrite minus_IZR. lra. Qed.
Lemma hf_le a b : (a <= b)%Z -> hf a <= hf b. Proof. intros H. apply IZR_le in H. unfold hf. lra. Qed.
Lemma hf_lt a b : (a < b)%Z -> hf a < hf b. Proof. intros H. apply IZR_lt in H. unfold hf. lra. Qed.
Lemma hf_nat k : hf (2 * Z.of_nat k) = INR k. Proof. unfold hf. rewrite mult_IZR, <- INR_IZR_INZ. lra. Qed.
Lemma hf_2 : hf 2 = 1. Proof. unfold hf. lra. Qed.
Ltac hfs := repeat (rewrite hf_add || rewrite hf_sub || rewrite hf_2).

(** ** the extremal component *)
Fixpoint pu (a : nat) (u : R) : R := match a with O => 1 | Datatypes.S k => u * pu k (u - 1) end.
Fixpoint pv (b : nat) (v : R) : R := match b with O => 1 | Datatypes.S k => (v + 1) * pv k (v + 1) end.
Lemma pu_end a u : pu a u * (u - INR a) = u * pu a (u - 1).
Proof. revert u. induction a as [|a IH]; intros u; [cbn; ring|]. rewrite S_INR. cbn [pu]. rewrite (Rmult_assoc u), <- (IH (u - 1)). ring. Qed.
Lemma pv_end b v : pv b v * (v + INR b + 1) = (v + 1) * pv b (v + 1).
Proof. revert v. induction b as [|b IH]; intros v; [cbn; ring|]. rewrite S_INR. cbn [pv]. rewrite (Rmult_assoc (v + 1)), <- (IH (v + 1)). ring. Qed.
Lemma pu_pos a u : INR a - 1 <= u -> 0 <= pu a u.
Proof. revert u. induction a as [|a IH]; intros u H; [cbn; lra|]. rewrite S_INR in H. pose proof (pos_INR a). cbn [pu]. apply Rmult_le_pos; [lra|apply IH; lra]. Qed.
Lemma pv_pos b v : 0 <= v -> 0 < pv b v.
Proof. revert v. induction b as [|b IH]; intros v H; [cbn; lra|]. cbn [pv]. apply Rmult_lt_0_compat; [lra|apply IH; lra]. Qed.
Lemma pu_pos' a u : INR a <= u -> 0 < pu a u.
Proof. revert u. induction a as [|a IH]; intros u H; [cbn; lra|]. rewrite S_INR in H. pose proof (pos_INR a). cbn [pu]. apply Rmult_lt_0_compat; [lra|apply IH; lra]. Qed.

Section Ladder.
  Variables (a b : nat) (S : Z).
  Let S' := (S + Z.of_nat b - Z.of_nat a)%Z.
  Let K := (Z.of_nat a + Z.of_nat b)%Z.
  Definition P (M : Z) : R := pu a (hf S + hf M) * pv b (hf S - hf M).
  Variable t : Z -> Z -> R.
  Hypothesis Ht : forall M' M, member S' M' -> member S M -> up S' M' * t (M' + 2)%Z M = down S M * t M' (M - 2)%Z.
  Lemma hfa : hf (Z.of_nat a) = INR a / 2. Proof. unfold hf. now rewrite <- INR_IZR_INZ. Qed.
  Lemma hfb : hf (Z.of_nat b) = INR b / 2. Proof. unfold hf. now rewrite <- INR_IZR_INZ. Qed.
  Lemma ladder_low M : member S M -> member S' (M - K) -> INR a <= hf S + hf M.
  Proof. intros _ [H _]. unfold S', K in H. assert (E : (2 * Z.of_nat a <= S + M)%Z) by lia. apply hf_le in E. rewrite hf_nat, hf_add in E. lra. Qed.
  Lemma ladder_step M : member S M -> member S' (M - K) -> member S' (M - 2 - K) -> member S (M - 2) -> up S' (M - 2 - K) * sqrt (P M) = down S M * sqrt (P (M - 2)).
  Proof.
    intros H1 H2 H3 H4. pose proof (ladder_low _ H4 H3) as L. rewrite hf_sub, hf_2 in L. pose proof (pos_INR a). pose proof (pos_INR b).
    assert (V : 0 <= hf S - hf M) by (destruct H1 as [[_ H1] _]; apply hf_le in H1; lra).
    pose proof (pu_pos a (hf S + hf M) ltac:(lra)). pose proof (pv_pos b (hf S - hf M) V). pose proof (pu_pos a (hf S + (hf M - 1)) ltac:(lra)). pose proof (pv_pos b (hf S - (hf M - 1)) ltac:(lra)).
    unfold up, down, P. rewrite <- !sqrt_mult_alt.
    - f_equal. unfold S', K. hfs. rewrite hfa, hfb.
      replace (hf S - (hf M - 1)) with (hf S - hf M + 1) by ring. replace (hf S + (hf M - 1)) with (hf S + hf M - 1) by ring.
      pose proof (pu_end a (hf S + hf M)) as E1. pose proof (pv_end b (hf S - hf M)) as E2.
      transitivity ((pu a (hf S + hf M) * (hf S + hf M - INR a)) * (pv b (hf S - hf M) * (hf S - hf M + INR b + 1))); [field|]. rewrite E1, E2. ring.
    - apply Rmult_le_pos; lra.
    - unfold S', K. hfs. rewrite hfa, hfb. apply Rmult_le_pos; lra.
  Qed.
  Lemma ladder : exists c, forall M, member S M -> member S' (M - K) -> t (M - K) M = c * sqrt (P M).
  Proof.
    exists (t (S - K) S / sqrt (P S)). intros M H1 H2.
    assert (E : t (M - K) M * sqrt (P S) = t (S - K) S * sqrt (P M)).
    { destruct H1 as [R1 [j Hj]]. assert (Hj0 : (0 <= j)%Z) by lia. revert M R1 Hj H2. pattern j. apply natlike_ind; [| |exact Hj0]; clear j Hj0.
      - intros M R1 Hj _. replace M with S by lia. reflexivity.
      - intros j Hj0 IH M R1 Hj H2. destruct H2 as [R2 [i Hi]].
        assert (A1 : member S (M + 2)) by (split; [lia|exists j; lia]). assert (A2 : member S' (M + 2 - K)) by (split; [unfold S', K in *; lia|exists (i - 1)%Z; lia]).
        assert (A3 : member S' (M + 2 - 2 - K)) by (split; [lia|exists i; lia]). assert (A4 : member S (M + 2 - 2)) by (split; [lia|exists (j + 1)%Z; lia]).
        specialize (IH (M + 2)%Z ltac:(lia) ltac:(lia) A2). pose proof (ladder_step (M + 2) A1 A2 A3 A4) as St. pose proof (Ht (M - K) (M + 2) ltac:(split; [lia|exists i; lia]) A1) as T.
        replace (M - K + 2)%Z with (M + 2 - K)%Z in T by lia. replace (M + 2 - 2)%Z with M in * by lia.
        assert (D : 0 < down S (M + 2)). { unfold down. apply sqrt_lt_R0. rewrite hf_add, hf_2. assert (X : (0 <= S + M)%Z) by lia. apply hf_le in X. rewrite hf_add in X. replace (hf 0) with 0 in X by (unfold hf; lra). assert (Y : (M + 2 <= S)%Z) by (destruct A1; lia). apply hf_le in Y. rewrite hf_add, hf_2 in Y. apply Rmult_lt_0_compat; lra. }
        apply (Rmult_eq_reg_l (down S (M + 2))); [|lra]. transitivity (up S' (M - K) * (t (M + 2 - K)%Z (M + 2)%Z * sqrt (P S))); [rewrite <- Rmult_assoc, <- T; ring|]. rewrite IH. transitivity (t (S - K)%Z S * (up S' (M - K) * sqrt (P (M + 2)))); [ring|]. rewrite St. ring. }
    assert (Z : 0 < sqrt (P S)).
    { apply sqrt_lt_R0. unfold P. apply Rmult_lt_0_compat; [|apply pv_pos; lra]. apply pu_pos'. pose proof (ladder_low M H1 H2). destruct H1 as [[_ H1] _]. apply hf_le in H1. lra. }
    field_simplify; [|lra]. apply (Rmult_eq_reg_r (sqrt (P S))); [|lra]. rewrite E. field. lra.
  Qed.
End Ladder.

(** ** selection rules *)
Lemma select S' S K (t : Z -> Z -> R) : (0 <= K)%Z -> (S' < S - K \/ S + K < S')%Z -> (forall M' M, member S' M' -> member S M -> up S' M' * t (M' + 2)%Z M = down S M * t M' (M - 2)%Z) ->
  forall M, member S M -> member S' (M - K) -> t (M - K)%Z M = 0.
Proof.
  intros HK Hd Ht M [R1 [j Hj]] [R2 [i Hi]].
  assert (pos_down : forall X, (- S < X <= S)%Z -> 0 < down S X).
  { intros X HX. unfold down. apply sqrt_lt_R0. assert (X1 : (0 < S + X)%Z) by lia. apply hf_lt in X1. rewrite hf_add in X1. assert (X2 : (X <= S)%Z) by lia. apply hf_le in X2. replace (hf 0) with 0 in X1 by (unfold hf; lra). apply Rmult_lt_0_compat; lra. }
  assert (pos_up : forall X, (- S' <= X < S')%Z -> 0 < up S' X).
  { intros X HX. unfold up. apply sqrt_lt_R0. assert (X1 : (0 <= S' + X)%Z) by lia. apply hf_le in X1. rewrite hf_add in X1. assert (X2 : (X < S')%Z) by lia. apply hf_lt in X2. replace (hf 0) with 0 in X1 by (unfold hf; lra). apply Rmult_lt_0_compat; lra. }
  destruct Hd as [Hd|Hd].
  - (* from the top of the bra *)
    assert (Hi0 : (0 <= i)%Z) by lia. revert M R1 j Hj R2 Hi. pattern i. apply natlike_ind; [| |exact Hi0]; clear i Hi0.
    + intros M R1 j Hj R2 Hi. pose proof (Ht (M - K)%Z (M + 2)%Z ltac:(split; [lia|exists 0%Z; lia]) ltac:(split; [lia|exists (j - 1)%Z; lia])) as T.
      replace (M + 2 - 2)%Z with M in T by lia. assert (U : up S' (M - K) = 0) by (unfold up; replace (M - K)%Z with S' by lia; rewrite Rminus_eq_0, Rmult_0_l; apply sqrt_0). rewrite U, Rmult_0_l in T. pose proof (pos_down (M + 2)%Z ltac:(lia)). apply (Rmult_eq_reg_l (down S (M + 2))); lra.
    + intros i Hi0 IH M R1 j Hj R2 Hi. pose proof (Ht (M - K)%Z (M + 2)%Z ltac:(split; [lia|exists (Z.succ i); lia]) ltac:(split; [lia|exists (j - 1)%Z; lia])) as T.
      replace (M - K + 2)%Z with (M + 2 - K)%Z in T by lia. rewrite (IH (M + 2)%Z ltac:(lia) (j - 1)%Z ltac:(lia) ltac:(lia) ltac:(lia)), Rmult_0_r in T. replace (M + 2 - 2)%Z with M in T by lia. pose proof (pos_down (M + 2)%Z ltac:(lia)). apply (Rmult_eq_reg_l (down S (M + 2))); lra.
  - (* from the bottom of the ket *)
    assert (Hl : exists l, (0 <= l)%Z /\ (M = - S + 2 * l)%Z) by (exists (S - j)%Z; lia). destruct Hl as (l & Hl0 & Hl). clear j Hj. revert M R1 R2 i Hi Hl. pattern l. apply natlike_ind; [| |exact Hl0]; clear l Hl0.
    + intros M R1 R2 i Hi Hl. pose proof (Ht (M - K - 2)%Z M ltac:(split; [lia|exists (i + 1)%Z; lia]) ltac:(split; [lia|exists S; lia])) as T.
      assert (U : down S M = 0) by (unfold down; replace M with (- S)%Z by lia; replace (hf S + hf (- S)) with 0 by (rewrite <- hf_add, Z.add_opp_diag_r; unfold hf; lra); rewrite Rmult_0_l; apply sqrt_0). rewrite U, Rmult_0_l in T. replace (M - K - 2 + 2)%Z with (M - K)%Z in T by lia. pose proof (pos_up (M - K - 2)%Z ltac:(lia)). apply (Rmult_eq_reg_l (up S' (M - K - 2))); lra.
    + intros l Hl0 IH M R1 R2 i Hi Hl. pose proof (Ht (M - K - 2)%Z M ltac:(split; [lia|exists (i + 1)%Z; lia]) ltac:(split; [lia|exists (S - l - 1)%Z; lia])) as T.
      replace (M - K - 2)%Z with (M - 2 - K)%Z in T by lia. rewrite (IH (M - 2)%Z ltac:(lia) ltac:(lia) (i + 1)%Z ltac:(lia) ltac:(lia)), Rmult_0_r in T. replace (M - 2 - K + 2)%Z with (M - K)%Z in T by lia. pose proof (pos_up (M - 2 - K)%Z ltac:(lia)). apply (Rmult_eq_reg_l (up S' (M - 2 - K))); lra.
Qed.
