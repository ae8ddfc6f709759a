(** The other components, obtained from the extremal one by commuting with S+. *)
From Coq Require Import List Bool Arith ZArith Reals Lia Lra Psatz.
From Verif Require Import SmultSpec SmultAlg.
Local Open Scope R_scope.

Lemma sqpair a b c d : 0 <= a -> 0 <= b -> 0 <= c -> a * b = c * c * d -> sqrt a * sqrt b = c * sqrt d.
Proof.
  intros Ha Hb Hc E. rewrite <- sqrt_mult_alt by exact Ha. rewrite E. rewrite sqrt_mult_alt by (apply Rmult_le_pos; exact Hc). rewrite sqrt_square by exact Hc. reflexivity.
Qed.

(** one application of S+ *)
Lemma chain S' S Q (t u : Z -> Z -> R) c (F : R -> R -> R) : commP S' S t u ->
  (forall M, member S M -> member S' (M + Q) -> t (M + Q)%Z M = c * F (hf S + hf M) (hf S - hf M)) -> (exists j, S' - S - Q = 2 * j)%Z ->
  forall M, member S M -> member S' (M + (Q + 2)) -> u (M + (Q + 2))%Z M = c * (down S' (M + (Q + 2)) * F (hf S + hf M) (hf S - hf M) - up S M * F (hf S + hf M + 1) (hf S - hf M - 1)).
Proof.
  intros H HF [p Hp] M [R1 [j Hj]] [R2 [i Hi]]. rewrite (H _ M) by (split; [lia|eexists; eassumption]).
  assert (E1 : down S' (M + (Q + 2)) * t (M + (Q + 2) - 2)%Z M = c * (down S' (M + (Q + 2)) * F (hf S + hf M) (hf S - hf M))).
  { destruct (Z_lt_le_dec (M + Q) (- S')) as [L|L].
    - assert (Z : down S' (M + (Q + 2)) = 0). { unfold down. replace (M + (Q + 2))%Z with (- S')%Z by lia. replace (hf S' + hf (- S')) with 0 by (rewrite <- hf_add, Z.add_opp_diag_r; unfold hf; lra). rewrite Rmult_0_l. apply sqrt_0. } rewrite Z. ring.
    - replace (M + (Q + 2) - 2)%Z with (M + Q)%Z by lia. rewrite HF; [ring| |]; split; try lia; eexists; try eassumption. instantiate (1 := (i + 1)%Z). lia. }
  assert (E2 : up S M * t (M + (Q + 2))%Z (M + 2)%Z = c * (up S M * F (hf S + hf M + 1) (hf S - hf M - 1))).
  { destruct (Z_lt_le_dec S (M + 2)) as [L|L].
    - assert (Z : up S M = 0). { unfold up. replace M with S by lia. rewrite Rminus_eq_0, Rmult_0_l. apply sqrt_0. } rewrite Z. ring.
    - replace (M + (Q + 2))%Z with (M + 2 + Q)%Z by lia. rewrite HF; [|split; [lia|exists (j - 1)%Z; lia]|split; [lia|exists i; lia]]. hfs. replace (hf S + (hf M + 1)) with (hf S + hf M + 1) by ring. replace (hf S - (hf M + 1)) with (hf S - hf M - 1) by ring. ring. }
  rewrite E1, E2. ring.
Qed.

(** closed form of one component: [t (M + Q) M] is a constant times [F (s + m) (s - m)] *)
Definition closed (S' S Q : Z) (t : Z -> Z -> R) (c : R) (F : R -> R -> R) : Prop :=
  forall M, member S M -> member S' (M + Q) -> t (M + Q)%Z M = c * F (hf S + hf M) (hf S - hf M).

Section Closed.
  Variables (a b : nat) (S : Z).
  Definition brS : Z := (S + Z.of_nat b - Z.of_nat a)%Z.
  Variables (t0 t1 t2 : Z -> Z -> R).
  Hypothesis H0 : commM brS S t0 (fun _ _ => 0).
  Hypothesis H1 : commP brS S t0 t1.
  Hypothesis H2 : commP brS S t1 t2.
  Let Q0 := (- (Z.of_nat a + Z.of_nat b))%Z.
  Lemma closed0 : exists c, closed brS S Q0 t0 c (fun u v => sqrt (pu a u * pv b v)).
  Proof.
    destruct (ladder a b S t0) as [c Hc]. { intros M' M A B. pose proof (H0 M' M A B). fold brS. lra. }
    exists c. intros M A B. fold brS in Hc. unfold Q0 in *. replace (M + - (Z.of_nat a + Z.of_nat b))%Z with (M - (Z.of_nat a + Z.of_nat b))%Z in * by lia. rewrite (Hc M A B). reflexivity.
  Qed.
  (** bounds that hold wherever the component of index [i] exists *)
  Lemma bounds i M : (0 <= i)%Z -> member S M -> member brS (M + (Q0 + 2 * i)) -> 0 <= hf S + hf M /\ 0 <= hf S - hf M /\ INR a - IZR i <= hf S + hf M /\ IZR i - INR b <= hf S - hf M.
  Proof.
    intros Hi [R1 _] [R2 _]. unfold brS, Q0 in R2. assert (X1 : (2 * Z.of_nat a - 2 * i <= S + M)%Z) by lia. assert (X2 : (2 * i - 2 * Z.of_nat b <= S - M)%Z) by lia.
    assert (X3 : (0 <= S + M)%Z) by lia. assert (X4 : (0 <= S - M)%Z) by lia. apply hf_le in X1, X2, X3, X4. rewrite hf_add in X1, X3. rewrite hf_sub in X2, X4. unfold hf in *. rewrite minus_IZR, !mult_IZR, <- INR_IZR_INZ in *. repeat split; lra.
  Qed.
  Lemma down_at i M : down brS (M + (Q0 + 2 * i)) = sqrt ((hf S + hf M - INR a + IZR i) * (hf S - hf M + INR b + 1 - IZR i)).
  Proof. unfold down, brS, Q0. f_equal. unfold hf. rewrite !minus_IZR, !plus_IZR, opp_IZR, !plus_IZR, mult_IZR, <- !INR_IZR_INZ. field. Qed.
  Lemma closed1 c (F G : R -> R -> R) : closed brS S Q0 t0 c F ->
    (forall u v, 0 <= u -> 0 <= v -> INR a - 1 <= u -> 1 - INR b <= v -> sqrt ((u - INR a + 1) * (v + INR b)) * F u v - sqrt (v * (u + 1)) * F (u + 1) (v - 1) = G u v) ->
    closed brS S (Q0 + 2) t1 c G.
  Proof.
    intros HF HG M A B. rewrite (chain brS S Q0 t0 t1 c F H1 HF); [|exists (Z.of_nat b); unfold brS, Q0; lia|exact A|exact B]. f_equal.
    destruct (bounds 1 M ltac:(lia) A) as (B1 & B2 & B3 & B4); [exact B|]. rewrite <- (HG _ _ B1 B2 B3 B4). change (Q0 + 2)%Z with (Q0 + 2 * 1)%Z. rewrite down_at. unfold up. replace (hf S - hf M + INR b + 1 - 1) with (hf S - hf M + INR b) by ring. reflexivity.
  Qed.
  Lemma closed2 c (F G : R -> R -> R) : closed brS S (Q0 + 2) t1 c F ->
    (forall u v, 0 <= u -> 0 <= v -> INR a - 2 <= u -> 2 - INR b <= v -> sqrt ((u - INR a + 2) * (v + INR b - 1)) * F u v - sqrt (v * (u + 1)) * F (u + 1) (v - 1) = G u v) ->
    closed brS S (Q0 + 4) t2 c G.
  Proof.
    intros HF HG M A B. replace (Q0 + 4)%Z with (Q0 + 2 + 2)%Z in * by lia. rewrite (chain brS S (Q0 + 2) t1 t2 c F H2 HF); [|exists (Z.of_nat b - 1)%Z; unfold brS, Q0; lia|exact A|exact B]. f_equal.
    replace (Q0 + 2 + 2)%Z with (Q0 + 2 * 2)%Z in * by lia. destruct (bounds 2 M ltac:(lia) A) as (B1 & B2 & B3 & B4); [exact B|]. rewrite <- (HG _ _ B1 B2 B3 B4). rewrite down_at. unfold up. replace (hf S - hf M + INR b + 1 - 2) with (hf S - hf M + INR b - 1) by ring. reflexivity.
  Qed.
End Closed.

Ltac factors := repeat match goal with |- 0 <= _ * _ => apply Rmult_le_pos end; try lra.
Ltac two c1 c2 d := match goal with |- sqrt ?a * (?k * sqrt ?b) - sqrt ?a' * (?k' * sqrt ?b') = _ =>
    let e1 := fresh in let e2 := fresh in
    assert (e1 : sqrt a * sqrt b = c1 * sqrt d) by (apply sqpair; [factors|factors|factors|ring]);
    assert (e2 : sqrt a' * sqrt b' = c2 * sqrt d) by (apply sqpair; [factors|factors|factors|ring]);
    transitivity (k * (sqrt a * sqrt b) - k' * (sqrt a' * sqrt b')); [ring|]; rewrite e1, e2 end.
Ltac one_ c1 c2 d := match goal with |- sqrt ?a * sqrt ?b - sqrt ?a' * sqrt ?b' = _ => rewrite <- (Rmult_1_l (sqrt b)), <- (Rmult_1_l (sqrt b')) end; two c1 c2 d.

(** all components that are needed, for rank (a + b)/2 *)
Definition F0 (a b : nat) (u v : R) : R := sqrt (pu a u * pv b v).
Definition F1 (a b : nat) (u v : R) : R :=
  match a, b with
  | 1%nat, 0%nat => - sqrt v | 0%nat, 1%nat => sqrt (u + 1)
  | 2%nat, 0%nat => - 2 * sqrt (u * v) | 1%nat, 1%nat => u - v | 0%nat, 2%nat => 2 * sqrt ((u + 1) * (v + 1))
  | 3%nat, 0%nat => - 3 * sqrt (u * (u - 1) * v) | 2%nat, 1%nat => (u - 2 * v - 1) * sqrt u | 1%nat, 2%nat => (2 * u - v) * sqrt (v + 1) | 0%nat, 3%nat => 3 * sqrt ((u + 1) * (v + 1) * (v + 2))
  | 4%nat, 0%nat => - 4 * sqrt (u * (u - 1) * (u - 2) * v) | 3%nat, 1%nat => (u - 3 * v - 2) * sqrt (u * (u - 1)) | 2%nat, 2%nat => (2 * u - 2 * v - 2) * sqrt (u * (v + 1)) | 1%nat, 3%nat => (3 * u - v) * sqrt ((v + 1) * (v + 2)) | 0%nat, 4%nat => 4 * sqrt ((u + 1) * (v + 1) * (v + 2) * (v + 3))
  | _, _ => 0
  end.
Definition F2 (a b : nat) (u v : R) : R :=
  match a, b with
  | 2%nat, 0%nat => 2 * sqrt (v * (v - 1)) | 1%nat, 1%nat => - 2 * sqrt ((u + 1) * v) | 0%nat, 2%nat => 2 * sqrt ((u + 1) * (u + 2))
  | 3%nat, 0%nat => 6 * sqrt (u * v * (v - 1)) | 2%nat, 1%nat => - 2 * (2 * u - v + 1) * sqrt v | 1%nat, 2%nat => 2 * (u - 2 * v) * sqrt (u + 1) | 0%nat, 3%nat => 6 * sqrt ((u + 1) * (u + 2) * (v + 1))
  | 4%nat, 0%nat => 12 * sqrt (u * (u - 1) * v * (v - 1)) | 3%nat, 1%nat => 6 * (v - u) * sqrt (u * v) | 2%nat, 2%nat => 2 * (u * u + v * v - 4 * u * v - u - v) | 1%nat, 3%nat => 6 * (u - v) * sqrt ((u + 1) * (v + 1)) | 0%nat, 4%nat => 12 * sqrt ((u + 1) * (u + 2) * (v + 1) * (v + 2))
  | _, _ => 0
  end.

Ltac nums := cbn [INR pu pv F1 F2] in *.
Lemma F1_01 u v : 0 <= u -> 0 <= v -> INR 0 - 1 <= u -> 1 - INR 1 <= v -> sqrt ((u - INR 0 + 1) * (v + INR 1)) * F0 0 1 u v - sqrt (v * (u + 1)) * F0 0 1 (u + 1) (v - 1) = F1 0 1 u v.
Proof. intros Hu Hv Ha Hb. unfold F0. nums. one_ (v + 1) v ((u + 1)). ring. Qed.
Lemma F1_02 u v : 0 <= u -> 0 <= v -> INR 0 - 1 <= u -> 1 - INR 2 <= v -> sqrt ((u - INR 0 + 1) * (v + INR 2)) * F0 0 2 u v - sqrt (v * (u + 1)) * F0 0 2 (u + 1) (v - 1) = F1 0 2 u v.
Proof. intros Hu Hv Ha Hb. unfold F0. nums. one_ (v + 2) v ((u + 1) * (v + 1)). ring. Qed.
Lemma F1_03 u v : 0 <= u -> 0 <= v -> INR 0 - 1 <= u -> 1 - INR 3 <= v -> sqrt ((u - INR 0 + 1) * (v + INR 3)) * F0 0 3 u v - sqrt (v * (u + 1)) * F0 0 3 (u + 1) (v - 1) = F1 0 3 u v.
Proof. intros Hu Hv Ha Hb. unfold F0. nums. one_ (v + 3) v ((u + 1) * (v + 1) * (v + 2)). ring. Qed.
Lemma F1_04 u v : 0 <= u -> 0 <= v -> INR 0 - 1 <= u -> 1 - INR 4 <= v -> sqrt ((u - INR 0 + 1) * (v + INR 4)) * F0 0 4 u v - sqrt (v * (u + 1)) * F0 0 4 (u + 1) (v - 1) = F1 0 4 u v.
Proof. intros Hu Hv Ha Hb. unfold F0. nums. one_ (v + 4) v ((u + 1) * (v + 1) * (v + 2) * (v + 3)). ring. Qed.
Lemma F1_10 u v : 0 <= u -> 0 <= v -> INR 1 - 1 <= u -> 1 - INR 0 <= v -> sqrt ((u - INR 1 + 1) * (v + INR 0)) * F0 1 0 u v - sqrt (v * (u + 1)) * F0 1 0 (u + 1) (v - 1) = F1 1 0 u v.
Proof. intros Hu Hv Ha Hb. unfold F0. nums. one_ (u - 1 + 1) (u + 1) (v). ring. Qed.
Lemma F1_11 u v : 0 <= u -> 0 <= v -> INR 1 - 1 <= u -> 1 - INR 1 <= v -> sqrt ((u - INR 1 + 1) * (v + INR 1)) * F0 1 1 u v - sqrt (v * (u + 1)) * F0 1 1 (u + 1) (v - 1) = F1 1 1 u v.
Proof. intros Hu Hv Ha Hb. unfold F0. nums. one_ ((u - 1 + 1) * (v + 1)) (v * (u + 1)) (1). rewrite sqrt_1. ring. Qed.
Lemma F1_12 u v : 0 <= u -> 0 <= v -> INR 1 - 1 <= u -> 1 - INR 2 <= v -> sqrt ((u - INR 1 + 1) * (v + INR 2)) * F0 1 2 u v - sqrt (v * (u + 1)) * F0 1 2 (u + 1) (v - 1) = F1 1 2 u v.
Proof. intros Hu Hv Ha Hb. unfold F0. nums. one_ ((u - 1 + 1) * (v + 2)) (v * (u + 1)) ((v + 1)). ring. Qed.
Lemma F1_13 u v : 0 <= u -> 0 <= v -> INR 1 - 1 <= u -> 1 - INR 3 <= v -> sqrt ((u - INR 1 + 1) * (v + INR 3)) * F0 1 3 u v - sqrt (v * (u + 1)) * F0 1 3 (u + 1) (v - 1) = F1 1 3 u v.
Proof. intros Hu Hv Ha Hb. unfold F0. nums. one_ ((u - 1 + 1) * (v + 3)) (v * (u + 1)) ((v + 1) * (v + 2)). ring. Qed.
Lemma F1_20 u v : 0 <= u -> 0 <= v -> INR 2 - 1 <= u -> 1 - INR 0 <= v -> sqrt ((u - INR 2 + 1) * (v + INR 0)) * F0 2 0 u v - sqrt (v * (u + 1)) * F0 2 0 (u + 1) (v - 1) = F1 2 0 u v.
Proof. intros Hu Hv Ha Hb. unfold F0. nums. one_ (u - 2 + 1) (u + 1) (u * v). ring. Qed.
Lemma F1_21 u v : 0 <= u -> 0 <= v -> INR 2 - 1 <= u -> 1 - INR 1 <= v -> sqrt ((u - INR 2 + 1) * (v + INR 1)) * F0 2 1 u v - sqrt (v * (u + 1)) * F0 2 1 (u + 1) (v - 1) = F1 2 1 u v.
Proof. intros Hu Hv Ha Hb. unfold F0. nums. one_ ((u - 2 + 1) * (v + 1)) (v * (u + 1)) (u). ring. Qed.
Lemma F1_22 u v : 0 <= u -> 0 <= v -> INR 2 - 1 <= u -> 1 - INR 2 <= v -> sqrt ((u - INR 2 + 1) * (v + INR 2)) * F0 2 2 u v - sqrt (v * (u + 1)) * F0 2 2 (u + 1) (v - 1) = F1 2 2 u v.
Proof. intros Hu Hv Ha Hb. unfold F0. nums. one_ ((u - 2 + 1) * (v + 2)) (v * (u + 1)) (u * (v + 1)). ring. Qed.
Lemma F1_30 u v : 0 <= u -> 0 <= v -> INR 3 - 1 <= u -> 1 - INR 0 <= v -> sqrt ((u - INR 3 + 1) * (v + INR 0)) * F0 3 0 u v - sqrt (v * (u + 1)) * F0 3 0 (u + 1) (v - 1) = F1 3 0 u v.
Proof. intros Hu Hv Ha Hb. unfold F0. nums. one_ (u - 3 + 1) (u + 1) (u * (u - 1) * v). ring. Qed.
Lemma F1_31 u v : 0 <= u -> 0 <= v -> INR 3 - 1 <= u -> 1 - INR 1 <= v -> sqrt ((u - INR 3 + 1) * (v + INR 1)) * F0 3 1 u v - sqrt (v * (u + 1)) * F0 3 1 (u + 1) (v - 1) = F1 3 1 u v.
Proof. intros Hu Hv Ha Hb. unfold F0. nums. one_ ((u - 3 + 1) * (v + 1)) (v * (u + 1)) (u * (u - 1)). ring. Qed.
Lemma F1_40 u v : 0 <= u -> 0 <= v -> INR 4 - 1 <= u -> 1 - INR 0 <= v -> sqrt ((u - INR 4 + 1) * (v + INR 0)) * F0 4 0 u v - sqrt (v * (u + 1)) * F0 4 0 (u + 1) (v - 1) = F1 4 0 u v.
Proof. intros Hu Hv Ha Hb. unfold F0. nums. one_ (u - 4 + 1) (u + 1) (u * (u - 1) * (u - 2) * v). ring. Qed.
Lemma F2_20 u v : 0 <= u -> 0 <= v -> INR 2 - 2 <= u -> 2 - INR 0 <= v -> sqrt ((u - INR 2 + 2) * (v + INR 0 - 1)) * F1 2 0 u v - sqrt (v * (u + 1)) * F1 2 0 (u + 1) (v - 1) = F2 2 0 u v.
Proof. intros Hu Hv Ha Hb. nums. two u (u+1) (v*(v-1)). ring. Qed.
Lemma F2_02 u v : 0 <= u -> 0 <= v -> INR 0 - 2 <= u -> 2 - INR 2 <= v -> sqrt ((u - INR 0 + 2) * (v + INR 2 - 1)) * F1 0 2 u v - sqrt (v * (u + 1)) * F1 0 2 (u + 1) (v - 1) = F2 0 2 u v.
Proof. intros Hu Hv Ha Hb. nums. two (v+1) v ((u+1)*(u+2)). ring. Qed.
Lemma F2_30 u v : 0 <= u -> 0 <= v -> INR 3 - 2 <= u -> 2 - INR 0 <= v -> sqrt ((u - INR 3 + 2) * (v + INR 0 - 1)) * F1 3 0 u v - sqrt (v * (u + 1)) * F1 3 0 (u + 1) (v - 1) = F2 3 0 u v.
Proof. intros Hu Hv Ha Hb. nums. two (u-1) (u+1) (u*v*(v-1)). ring. Qed.
Lemma F2_21 u v : 0 <= u -> 0 <= v -> INR 2 - 2 <= u -> 2 - INR 1 <= v -> sqrt ((u - INR 2 + 2) * (v + INR 1 - 1)) * F1 2 1 u v - sqrt (v * (u + 1)) * F1 2 1 (u + 1) (v - 1) = F2 2 1 u v.
Proof. intros Hu Hv Ha Hb. nums. two u (u+1) (v). ring. Qed.
Lemma F2_12 u v : 0 <= u -> 0 <= v -> INR 1 - 2 <= u -> 2 - INR 2 <= v -> sqrt ((u - INR 1 + 2) * (v + INR 2 - 1)) * F1 1 2 u v - sqrt (v * (u + 1)) * F1 1 2 (u + 1) (v - 1) = F2 1 2 u v.
Proof. intros Hu Hv Ha Hb. nums. two (v+1) v ((u+1)). ring. Qed.
Lemma F2_03 u v : 0 <= u -> 0 <= v -> INR 0 - 2 <= u -> 2 - INR 3 <= v -> sqrt ((u - INR 0 + 2) * (v + INR 3 - 1)) * F1 0 3 u v - sqrt (v * (u + 1)) * F1 0 3 (u + 1) (v - 1) = F2 0 3 u v.
Proof. intros Hu Hv Ha Hb. nums. two (v+2) v ((u+1)*(u+2)*(v+1)). ring. Qed.
Lemma F2_40 u v : 0 <= u -> 0 <= v -> INR 4 - 2 <= u -> 2 - INR 0 <= v -> sqrt ((u - INR 4 + 2) * (v + INR 0 - 1)) * F1 4 0 u v - sqrt (v * (u + 1)) * F1 4 0 (u + 1) (v - 1) = F2 4 0 u v.
Proof. intros Hu Hv Ha Hb. nums. two (u-2) (u+1) (u*(u-1)*v*(v-1)). ring. Qed.
Lemma F2_31 u v : 0 <= u -> 0 <= v -> INR 3 - 2 <= u -> 2 - INR 1 <= v -> sqrt ((u - INR 3 + 2) * (v + INR 1 - 1)) * F1 3 1 u v - sqrt (v * (u + 1)) * F1 3 1 (u + 1) (v - 1) = F2 3 1 u v.
Proof. intros Hu Hv Ha Hb. nums. two (u-1) (u+1) (u*v). ring. Qed.
Lemma F2_22 u v : 0 <= u -> 0 <= v -> INR 2 - 2 <= u -> 2 - INR 2 <= v -> sqrt ((u - INR 2 + 2) * (v + INR 2 - 1)) * F1 2 2 u v - sqrt (v * (u + 1)) * F1 2 2 (u + 1) (v - 1) = F2 2 2 u v.
Proof. intros Hu Hv Ha Hb. nums. two (u*(v+1)) (v*(u+1)) (1). rewrite sqrt_1. ring. Qed.
Lemma F2_13 u v : 0 <= u -> 0 <= v -> INR 1 - 2 <= u -> 2 - INR 3 <= v -> sqrt ((u - INR 1 + 2) * (v + INR 3 - 1)) * F1 1 3 u v - sqrt (v * (u + 1)) * F1 1 3 (u + 1) (v - 1) = F2 1 3 u v.
Proof. intros Hu Hv Ha Hb. nums. two (v+2) v ((u+1)*(v+1)). ring. Qed.
Lemma F2_04 u v : 0 <= u -> 0 <= v -> INR 0 - 2 <= u -> 2 - INR 4 <= v -> sqrt ((u - INR 0 + 2) * (v + INR 4 - 1)) * F1 0 4 u v - sqrt (v * (u + 1)) * F1 0 4 (u + 1) (v - 1) = F2 0 4 u v.
Proof. intros Hu Hv Ha Hb. nums. two (v+3) v ((u+1)*(u+2)*(v+1)*(v+2)). ring. Qed.
Lemma F2_11 u v : 0 <= u -> 0 <= v -> INR 1 - 2 <= u -> 2 - INR 1 <= v -> sqrt ((u - INR 1 + 2) * (v + INR 1 - 1)) * F1 1 1 u v - sqrt (v * (u + 1)) * F1 1 1 (u + 1) (v - 1) = F2 1 1 u v.
Proof. intros Hu Hv Ha Hb. nums. replace ((u - 1 + 2) * (v + 1 - 1)) with ((u + 1) * v) by ring. replace (v * (u + 1)) with ((u + 1) * v) by ring. ring. Qed.
