(** One and two annihilators, and one creator with one annihilator. *)
From Coq Require Import List NArith Arith Bool ZArith Reals Lia Lra.
From Verif Require Import Star FockSpec LsisUpdModel SmultSpec SmultAlg SmultClosed SmultComm SmultTens SmultScale SmultModel.
Import ListNotations.
Local Open Scope R_scope.

Lemma scale_h_at D S op M : scale_h (S + D + 1) op (S + 1) M = if (((D + 3) / 2 <? 0)%Z || (4 <=? (D + 3) / 2)%Z)%bool then V 0 else t_scale_h ((D + 3) / 2) op (hf S) (hf M).
Proof. unfold scale_h, half, hf. replace (S + D + 1 - (S + 1) + 3)%Z with (D + 3)%Z by lia. replace (S + 1 - 1)%Z with S by lia. reflexivity. Qed.
Lemma scale_hh_at D S op M : scale_hh (S + D + 1) op (S + 1) M = if (((D + 2) / 2 <? 0)%Z || (3 <=? (D + 2) / 2)%Z)%bool then V 0 else t_scale_hh ((D + 2) / 2) op (hf S) (hf M).
Proof. unfold scale_hh, half, hf. replace (S + D + 1 - (S + 1) + 2)%Z with (D + 2)%Z by lia. replace (S + 1 - 1)%Z with S by lia. reflexivity. Qed.
Lemma scale_sm_at D S M : scale_sm (S + D + 1) (S + 1) M = if (((D + 2) / 2 <? 0)%Z || (3 <=? (D + 2) / 2)%Z)%bool then V 0 else t_scale_sm ((D + 2) / 2) (hf S) (hf M).
Proof. unfold scale_sm, half, hf. replace (S + D + 1 - (S + 1) + 2)%Z with (D + 2)%Z by lia. replace (S + 1 - 1)%Z with S by lia. reflexivity. Qed.
Lemma scale_dm_lo D S M : (D <= 0)%Z -> scale_dm (S + D + 1) (S + 1) M = if (((D + 4) / 2 <? 0)%Z || (3 <=? (D + 4) / 2)%Z)%bool then V 0 else t_scale_dm ((D + 4) / 2) (hf S) (hf M).
Proof. intros H. unfold scale_dm, half, hf. rewrite (proj2 (Z.ltb_ge _ _)) by lia. replace (S + D + 1 - (S + 1) + 4)%Z with (D + 4)%Z by lia. replace (S + 1 - 1)%Z with S by lia. reflexivity. Qed.
Lemma scale_dm_hi D S M : (0 < D)%Z -> scale_dm (S + D + 1) (S + 1) M = if (((- D + 4) / 2 <? 0)%Z || (3 <=? (- D + 4) / 2)%Z)%bool then V 0 else t_scale_dm ((- D + 4) / 2) (hf (S + D)) (hf M).
Proof. intros H. unfold scale_dm, half, hf. rewrite (proj2 (Z.ltb_lt _ _)) by lia. replace (S + 1 - (S + D + 1) + 4)%Z with (- D + 4)%Z by lia. replace (S + D + 1 - 1)%Z with (S + D)%Z by lia. reflexivity. Qed.
Lemma high_ket_at D S Q : high_ket (S + D + 1) (S + 1) Q = Z.min S (S + D - Q).
Proof. unfold high_ket. f_equal; lia. Qed.
(** ranges *)
Lemma range S M : member S M -> 0 <= hf S + hf M /\ 0 <= hf S - hf M.
Proof. intros [[A B] _]. assert (X : (0 <= S + M)%Z) by lia. assert (Y : (0 <= S - M)%Z) by lia. apply hf_le in X, Y. rewrite hf_add in X. rewrite hf_sub in Y. unfold hf in *. lra. Qed.
Lemma hf_opp z : hf (- z) = - hf z. Proof. unfold hf. rewrite opp_IZR. lra. Qed.
Lemma hfz k : hf k = IZR k / 2. Proof. reflexivity. Qed.
(** bounds of s + m and s - m, and of s, from the members that exist *)
Lemma ranges S D M Q : member S M -> member (S + D) (M + Q) ->
  0 <= hf S + hf M /\ 0 <= hf S - hf M /\ - (IZR D + IZR Q) / 2 <= hf S + hf M /\ (IZR Q - IZR D) / 2 <= hf S - hf M /\ 0 <= hf S /\ - IZR D / 2 <= hf S.
Proof.
  intros A B. destruct (range _ _ A) as [P1 P2], (range _ _ B) as [P3 P4]. rewrite !hf_add in P3, P4. unfold hf in *. repeat split; lra.
Qed.
(** [P sqrt W] is scaled by [sqrt rho] *)
Lemma scaled c P P0 W W0 rho x y : x = c * (P0 * sqrt W0) -> y = c * (P * sqrt W) -> 0 <= rho -> W = rho * W0 -> y * P0 = x * sqrt rho * P.
Proof. intros -> -> Hr ->. rewrite sqrt_mult_alt by exact Hr. ring. Qed.
Lemma scaled1 {k} c W W0 rho x y : x = c * (k * sqrt W0) -> y = c * (k * sqrt W) -> 0 <= rho -> W = rho * W0 -> y = x * sqrt rho.
Proof. intros -> -> Hr ->. rewrite sqrt_mult_alt by exact Hr. ring. Qed.
Lemma scaledp c W W0 rho x y : x = c * sqrt W0 -> y = c * sqrt W -> 0 <= rho -> W = rho * W0 -> y = x * sqrt rho.
Proof. intros -> -> Hr ->. rewrite sqrt_mult_alt by exact Hr. ring. Qed.
Lemma scaledn c W W0 rho x y : x = c * - sqrt W0 -> y = c * - sqrt W -> 0 <= rho -> W = rho * W0 -> y = x * sqrt rho.
Proof. intros -> -> Hr ->. rewrite sqrt_mult_alt by exact Hr. ring. Qed.

(** component [i] *)
Definition itL (i : nat) (L : list (R * list fop)) : list (R * list fop) := match i with O => L | 1%nat => derL dP1 L | _ => derL dP1 (derL dP1 L) end.
Definition Fi (i : nat) : nat -> nat -> R -> R -> R := match i with O => F0 | 1%nat => F1 | _ => F2 end.
Section Pair.
Variables (n : nat) (S D : Z) (psi' psi : Z -> vec Rs) (M : Z).
Hypothesis Hb : multiplet n (S + D) psi'.
Hypothesis Hk : multiplet n S psi.
Variables (L : list (R * list fop)) (i : nat) (Q : Z).
Hypothesis HL : extremal n psi' psi L.
Hypothesis Hi : (i <= 2)%nat.
Hypothesis A : member S M.
Hypothesis B : member (S + D) (M + Q).
Let M0 := Z.min S (S + D - Q).
Lemma both a b : (a + b <= 4)%nat -> (i <= a + b)%nat -> D = (Z.of_nat b - Z.of_nat a)%Z -> Q = (2 * Z.of_nat i - (Z.of_nat a + Z.of_nat b))%Z ->
  exists c, comb n psi' psi (itL i L) (M + Q) M = c * Fi i a b (hf S + hf M) (hf S - hf M) /\ comb n psi' psi (itL i L) (M0 + Q) M0 = c * Fi i a b (2 * hf S - INR (i - b)) (INR (i - b)).
Proof.
  intros Hab Hiab HD HQ. destruct (high (S + D) S Q M A B) as [A0 B0]. fold M0 in A0, B0. destruct (tens n (S + D) S psi' psi Hb Hk L a b HL Hab ltac:(unfold brS; lia)) as (c & T0 & T1 & T2). exists c.
  assert (EM : hf S - hf M0 = INR (i - b)).
  { unfold M0. destruct (le_lt_dec i b) as [G|G].
    - replace (i - b)%nat with 0%nat by lia. rewrite Z.min_l by lia. cbn. lra.
    - rewrite Z.min_r by lia. rewrite (INR_IZR_INZ (i - b)), Nat2Z.inj_sub by lia. unfold hf. rewrite HD, HQ. repeat (rewrite minus_IZR || rewrite plus_IZR || rewrite mult_IZR). lra. }
  assert (EP : hf S + hf M0 = 2 * hf S - INR (i - b)) by lra. rewrite <- EP, <- EM.
  destruct i as [|[|[|k]]]; [| | |lia]; cbn [itL Fi].
  - assert (EQ : Q = (- (Z.of_nat a + Z.of_nat b))%Z) by lia. rewrite EQ in *. split; [exact (T0 M A B)|exact (T0 M0 A0 B0)].
  - assert (EQ : Q = (- (Z.of_nat a + Z.of_nat b) + 2)%Z) by lia. rewrite EQ in *. split; [exact (T1 Hiab M A B)|exact (T1 Hiab M0 A0 B0)].
  - assert (EQ : Q = (- (Z.of_nat a + Z.of_nat b) + 4)%Z) by lia. rewrite EQ in *. split; [exact (T2 Hiab M A B)|exact (T2 Hiab M0 A0 B0)].
Qed.
Lemma both0 K : (0 <= K)%Z -> (D < - K \/ K < D)%Z -> Q = (2 * Z.of_nat i - K)%Z -> comb n psi' psi (itL i L) (M + Q) M = 0 /\ comb n psi' psi (itL i L) (M0 + Q) M0 = 0.
Proof.
  intros HK HD HQ. destruct (high (S + D) S Q M A B) as [A0 B0]. fold M0 in A0, B0. destruct (tens0 n (S + D) S psi' psi Hb Hk L K HL HK ltac:(lia)) as (T0 & T1 & T2).
  cut (comb n psi' psi (itL i L) (M + Q) M = 0 * 0 /\ comb n psi' psi (itL i L) (M0 + Q) M0 = 0 * 0); [intros [-> ->]; split; ring|]. destruct i as [|[|[|k]]]; [| | |lia]; cbn [itL].
  - assert (EQ : Q = (- K)%Z) by lia. rewrite EQ in *. split; [exact (T0 M A B)|exact (T0 M0 A0 B0)].
  - assert (EQ : Q = (- K + 2)%Z) by lia. rewrite EQ in *. split; [exact (T1 M A B)|exact (T1 M0 A0 B0)].
  - assert (EQ : Q = (- K + 4)%Z) by lia. rewrite EQ in *. split; [exact (T2 M A B)|exact (T2 M0 A0 B0)].
Qed.
End Pair.
Lemma tov x y f : y = x * f -> V x *! V f = V y. Proof. intros ->. reflexivity. Qed.
Ltac num_in X := unfold Fi, F0 in X; cbn [F1 F2 pu pv INR Nat.sub] in X.
Ltac rat := first [ring | field; repeat split; nz].
(** [y = x sqrt rho] from the closed forms [X] and [Y] of multiples of [x] and [y] *)
Ltac step lem X Y := num_in X; num_in Y; match goal with |- ?y = ?x * sqrt ?r => let F := fresh in pose proof (lem _ _ _ r _ _ X Y ltac:(pos) ltac:(rat)) as F; lra end.
Ltac step1 X Y := num_in X; num_in Y; match goal with |- ?y = ?x * sqrt ?r => let F := fresh in pose proof (scaled1 _ _ _ r _ _ X Y ltac:(pos) ltac:(rat)) as F; lra end.
Ltac step1d X Y XN YN := num_in X; num_in Y; match goal with |- ?y = ?x * sqrt ?r => let F := fresh in pose proof (scaled1 _ _ _ r _ _ X Y ltac:(pos) ltac:(rat)) as F; rewrite (Rplus_opp_r_uniq _ _ XN), (Rplus_opp_r_uniq _ _ YN); lra end.
Ltac idx := repeat match goal with |- context [((?a + ?b) / 2)%Z] => let r := eval vm_compute in ((a + b) / 2)%Z in change ((a + b) / 2)%Z with r end; cbn [Z.ltb Z.leb Z.compare orb Pos.compare Pos.compare_cont].
Ltac out := match goal with G : (?x < 0)%Z |- context [(?x <? 0)%Z] => rewrite (proj2 (Z.ltb_lt _ _) G) | G : (?k <= ?x)%Z |- context [(?k <=? ?x)%Z] => rewrite (proj2 (Z.leb_le _ _) G), orb_true_r end; cbn [orb].

Ltac sw H := let W := fresh in pose proof H as W; cbn [app] in W; rewrite W; clear W.
Section One.
Variables (n : nat) (S D : Z) (psi' psi : Z -> vec Rs) (M : Z).
Hypothesis Hb : multiplet n (S + D) psi'.
Hypothesis Hk : multiplet n S psi.
Notation E := (E n psi' psi).

Section H.
Variables (p : nat) (Hp : (p < n)%nat).
Let L0 : list (R * list fop) := [(1, [(false, false, p)])].
Lemma ext_h : extremal n psi' psi L0.
Proof. split; [repeat constructor; exact Hp|]. intros M' M1. unfold comb, L0. cbn [derL der dM1 map app sc fold_right fst snd]. ring. Qed.
Lemma h_0 M' M1 : comb n psi' psi (itL 0 L0) M' M1 = E [(false, false, p)] M' M1.
Proof. unfold comb, L0. cbn [itL fold_right fst snd]. ring. Qed.
Lemma h_1 M' M1 : comb n psi' psi (itL 1 L0) M' M1 = - E [(false, true, p)] M' M1.
Proof. unfold comb, L0. cbn [itL derL der dP1 map app sc fold_right fst snd]. ring. Qed.
Lemma main_h0 : member S M -> member (S + D) (M + -1) ->
  V (E [(false, false, p)] (Z.min S (S + D - -1) + -1) (Z.min S (S + D - -1))) *! scale_h (S + D + 1) 0 (S + 1) M = V (E [(false, false, p)] (M + -1) M).
Proof.
  intros A B. destruct (ranges S D M (-1) A B) as (R1 & R2 & R3 & R4 & R5 & R6). rewrite scale_h_at.
  assert (Dd : (D = -1 \/ D = 1 \/ D = -3 \/ D = 3 \/ ((D + 3) / 2 < 0 /\ D < -1) \/ (4 <= (D + 3) / 2 /\ 1 < D))%Z).
  { clear - A B. destruct A as [_ [i Ei]], B as [_ [j Ej]]. Z.to_euclidean_division_equations; lia. }
  destruct Dd as [E0|[E0|[E0|[E0|[[G1 G2]|[G1 G2]]]]]].
  - destruct (both n S D psi' psi M Hb Hk L0 0 (-1) ext_h ltac:(lia) A B 1 0 ltac:(lia) ltac:(lia) ltac:(lia) ltac:(lia)) as (c & Y & X). rewrite h_0 in X, Y. rewrite E0 in *. idx. rewrite h_m1_0 by lra. apply tov. step scaledp X Y.
  - destruct (both n S D psi' psi M Hb Hk L0 0 (-1) ext_h ltac:(lia) A B 0 1 ltac:(lia) ltac:(lia) ltac:(lia) ltac:(lia)) as (c & Y & X). rewrite h_0 in X, Y. rewrite E0 in *. idx. rewrite h_p1_0 by lra. apply tov. step scaledp X Y.
  - destruct (both0 n S D psi' psi M Hb Hk L0 0 (-1) ext_h ltac:(lia) A B 1 ltac:(lia) ltac:(lia) ltac:(lia)) as (Y & X). rewrite h_0 in X, Y. rewrite E0 in *. idx. rewrite h_m3_0 by lra. apply tov. nra.
  - destruct (both0 n S D psi' psi M Hb Hk L0 0 (-1) ext_h ltac:(lia) A B 1 ltac:(lia) ltac:(lia) ltac:(lia)) as (Y & X). rewrite h_0 in X, Y. rewrite E0 in *. idx. rewrite h_p3_0 by lra. apply tov. nra.
  - destruct (both0 n S D psi' psi M Hb Hk L0 0 (-1) ext_h ltac:(lia) A B 1 ltac:(lia) ltac:(lia) ltac:(lia)) as (Y & X). rewrite h_0 in X, Y. out. apply tov. lra.
  - destruct (both0 n S D psi' psi M Hb Hk L0 0 (-1) ext_h ltac:(lia) A B 1 ltac:(lia) ltac:(lia) ltac:(lia)) as (Y & X). rewrite h_0 in X, Y. out. apply tov. lra.
Qed.
Lemma main_h1 : member S M -> member (S + D) (M + 1) ->
  V (E [(false, true, p)] (Z.min S (S + D - 1) + 1) (Z.min S (S + D - 1))) *! scale_h (S + D + 1) 1 (S + 1) M = V (E [(false, true, p)] (M + 1) M).
Proof.
  intros A B. destruct (ranges S D M 1 A B) as (R1 & R2 & R3 & R4 & R5 & R6). rewrite scale_h_at.
  assert (Dd : (D = -1 \/ D = 1 \/ D = -3 \/ D = 3 \/ ((D + 3) / 2 < 0 /\ D < -1) \/ (4 <= (D + 3) / 2 /\ 1 < D))%Z).
  { clear - A B. destruct A as [_ [i Ei]], B as [_ [j Ej]]. Z.to_euclidean_division_equations; lia. }
  destruct Dd as [E0|[E0|[E0|[E0|[[G1 G2]|[G1 G2]]]]]].
  - destruct (both n S D psi' psi M Hb Hk L0 1 1 ext_h ltac:(lia) A B 1 0 ltac:(lia) ltac:(lia) ltac:(lia) ltac:(lia)) as (c & Y & X). rewrite h_1 in X, Y. rewrite E0 in *. idx. rewrite h_m1_1 by lra. apply tov. step scaledn X Y.
  - destruct (both n S D psi' psi M Hb Hk L0 1 1 ext_h ltac:(lia) A B 0 1 ltac:(lia) ltac:(lia) ltac:(lia) ltac:(lia)) as (c & Y & X). rewrite h_1 in X, Y. rewrite E0 in *. idx. rewrite h_p1_1 by lra. apply tov. step scaledp X Y.
  - destruct (both0 n S D psi' psi M Hb Hk L0 1 1 ext_h ltac:(lia) A B 1 ltac:(lia) ltac:(lia) ltac:(lia)) as (Y & X). rewrite h_1 in X, Y. rewrite E0 in *. idx. rewrite h_m3_1 by lra. apply tov. nra.
  - destruct (both0 n S D psi' psi M Hb Hk L0 1 1 ext_h ltac:(lia) A B 1 ltac:(lia) ltac:(lia) ltac:(lia)) as (Y & X). rewrite h_1 in X, Y. rewrite E0 in *. idx. rewrite h_p3_1 by lra. apply tov. nra.
  - destruct (both0 n S D psi' psi M Hb Hk L0 1 1 ext_h ltac:(lia) A B 1 ltac:(lia) ltac:(lia) ltac:(lia)) as (Y & X). rewrite h_1 in X, Y. out. apply tov. lra.
  - destruct (both0 n S D psi' psi M Hb Hk L0 1 1 ext_h ltac:(lia) A B 1 ltac:(lia) ltac:(lia) ltac:(lia)) as (Y & X). rewrite h_1 in X, Y. out. apply tov. lra.
Qed.
End H.

Section HH.
Variables (p q : nat) (Hp : (p < n)%nat) (Hq : (q < n)%nat).
Notation Xba := (fun p q => E [(false, true, p); (false, false, q)]).
Let L0 : list (R * list fop) := [(1, [(false, false, p); (false, false, q)])].
Let N0 : list (R * list fop) := [(1, [(false, true, p); (false, false, q)]); (1, [(false, true, q); (false, false, p)])].
Lemma ext_hh : extremal n psi' psi L0.
Proof. split; [repeat constructor; assumption|]. intros M' M1. unfold comb, L0. cbn [derL der dM1 map app sc fold_right fst snd]. ring. Qed.
Lemma ext_hh_n : extremal n psi' psi N0.
Proof.
  split; [repeat constructor; assumption|]. intros M' M1. unfold comb, N0. cbn [derL der dM1 map app sc fold_right fst snd]. sw (E_swap n psi' psi [] false false false q p [] M' M1 Hq Hp). ring.
Qed.
Lemma hh_0 M' M1 : comb n psi' psi (itL 0 L0) M' M1 = E [(false, false, p); (false, false, q)] M' M1.
Proof. unfold comb, L0. cbn [itL fold_right fst snd]. ring. Qed.
Lemma hh_1 M' M1 : comb n psi' psi (itL 1 L0) M' M1 = - (Xba p q M' M1 - Xba q p M' M1).
Proof.
  unfold comb, L0. cbn [itL derL der dP1 map app sc fold_right fst snd]. sw (E_swap n psi' psi [] false false true p q [] M' M1 Hp Hq). ring.
Qed.
Lemma hh_2 M' M1 : comb n psi' psi (itL 2 L0) M' M1 = 2 * E [(false, true, p); (false, true, q)] M' M1.
Proof. unfold comb, L0. cbn [itL derL der dP1 map app sc fold_right fst snd]. ring. Qed.
Lemma hh_n M' M1 : comb n psi' psi (itL 0 N0) M' M1 = Xba p q M' M1 + Xba q p M' M1.
Proof. unfold comb, N0. cbn [itL fold_right fst snd]. ring. Qed.
Lemma main_hh0 : member S M -> member (S + D) (M + -2) ->
  V (E [(false, false, p); (false, false, q)] (Z.min S (S + D - -2) + -2) (Z.min S (S + D - -2))) *! scale_hh (S + D + 1) 0 (S + 1) M = V (E [(false, false, p); (false, false, q)] (M + -2) M).
Proof.
  intros A B. destruct (ranges S D M (-2) A B) as (R1 & R2 & R3 & R4 & R5 & R6). rewrite scale_hh_at.
  assert (Dd : (D = -2 \/ D = 0 \/ D = 2 \/ ((D + 2) / 2 < 0 /\ D < -2) \/ (3 <= (D + 2) / 2 /\ 2 < D))%Z).
  { clear - A B. destruct A as [_ [i Ei]], B as [_ [j Ej]]. Z.to_euclidean_division_equations; lia. }
  destruct Dd as [E0|[E0|[E0|[[G1 G2]|[G1 G2]]]]].
  - destruct (both n S D psi' psi M Hb Hk L0 0 (-2) ext_hh ltac:(lia) A B 2 0 ltac:(lia) ltac:(lia) ltac:(lia) ltac:(lia)) as (c & Y & X). rewrite hh_0 in X, Y. rewrite E0 in *. idx. rewrite hh_m2_0 by lra. apply tov. step scaledp X Y.
  - destruct (both n S D psi' psi M Hb Hk L0 0 (-2) ext_hh ltac:(lia) A B 1 1 ltac:(lia) ltac:(lia) ltac:(lia) ltac:(lia)) as (c & Y & X). rewrite hh_0 in X, Y. rewrite E0 in *. idx. rewrite hh_0_0 by lra. apply tov. step scaledp X Y.
  - destruct (both n S D psi' psi M Hb Hk L0 0 (-2) ext_hh ltac:(lia) A B 0 2 ltac:(lia) ltac:(lia) ltac:(lia) ltac:(lia)) as (c & Y & X). rewrite hh_0 in X, Y. rewrite E0 in *. idx. rewrite hh_p2_0 by lra. apply tov. step scaledp X Y.
  - destruct (both0 n S D psi' psi M Hb Hk L0 0 (-2) ext_hh ltac:(lia) A B 2 ltac:(lia) ltac:(lia) ltac:(lia)) as (Y & X). rewrite hh_0 in X, Y. out. apply tov. lra.
  - destruct (both0 n S D psi' psi M Hb Hk L0 0 (-2) ext_hh ltac:(lia) A B 2 ltac:(lia) ltac:(lia) ltac:(lia)) as (Y & X). rewrite hh_0 in X, Y. out. apply tov. lra.
Qed.
Lemma main_hh2 : member S M -> member (S + D) (M + 2) ->
  V (E [(false, true, p); (false, true, q)] (Z.min S (S + D - 2) + 2) (Z.min S (S + D - 2))) *! scale_hh (S + D + 1) 2 (S + 1) M = V (E [(false, true, p); (false, true, q)] (M + 2) M).
Proof.
  intros A B. destruct (ranges S D M (2) A B) as (R1 & R2 & R3 & R4 & R5 & R6). rewrite scale_hh_at.
  assert (Dd : (D = -2 \/ D = 0 \/ D = 2 \/ ((D + 2) / 2 < 0 /\ D < -2) \/ (3 <= (D + 2) / 2 /\ 2 < D))%Z).
  { clear - A B. destruct A as [_ [i Ei]], B as [_ [j Ej]]. Z.to_euclidean_division_equations; lia. }
  destruct Dd as [E0|[E0|[E0|[[G1 G2]|[G1 G2]]]]].
  - destruct (both n S D psi' psi M Hb Hk L0 2 (2) ext_hh ltac:(lia) A B 2 0 ltac:(lia) ltac:(lia) ltac:(lia) ltac:(lia)) as (c & Y & X). rewrite hh_2 in X, Y. rewrite E0 in *. idx. rewrite hh_m2_2 by lra. apply tov. step1 X Y.
  - destruct (both n S D psi' psi M Hb Hk L0 2 (2) ext_hh ltac:(lia) A B 1 1 ltac:(lia) ltac:(lia) ltac:(lia) ltac:(lia)) as (c & Y & X). rewrite hh_2 in X, Y. rewrite E0 in *. idx. rewrite hh_0_2 by lra. apply tov. step1 X Y.
  - destruct (both n S D psi' psi M Hb Hk L0 2 (2) ext_hh ltac:(lia) A B 0 2 ltac:(lia) ltac:(lia) ltac:(lia) ltac:(lia)) as (c & Y & X). rewrite hh_2 in X, Y. rewrite E0 in *. idx. rewrite hh_p2_2 by lra. apply tov. step1 X Y.
  - destruct (both0 n S D psi' psi M Hb Hk L0 2 (2) ext_hh ltac:(lia) A B 2 ltac:(lia) ltac:(lia) ltac:(lia)) as (Y & X). rewrite hh_2 in X, Y. out. apply tov. lra.
  - destruct (both0 n S D psi' psi M Hb Hk L0 2 (2) ext_hh ltac:(lia) A B 2 ltac:(lia) ltac:(lia) ltac:(lia)) as (Y & X). rewrite hh_2 in X, Y. out. apply tov. lra.
Qed.
Lemma main_hh1 (M0 := Z.min S (S + D - 0)) : member S M -> member (S + D) (M + 0) ->
  mdown_hh (fun p q => Xba p q (M0 + 0)%Z M0) (S + D + 1) 1 (S + 1) M p q = V (Xba p q (M + 0)%Z M).
Proof.
  subst M0. intros A B. unfold mdown_hh. replace (S + D + 1 - (S + 1))%Z with D by lia. replace (S + 1 - 1)%Z with S by lia. revert A B.
  intros A B. destruct (ranges S D M (0) A B) as (R1 & R2 & R3 & R4 & R5 & R6). rewrite scale_hh_at.
  assert (Dd : (D = -2 \/ D = 0 \/ D = 2 \/ ((D + 2) / 2 < 0 /\ D < -2) \/ (3 <= (D + 2) / 2 /\ 2 < D))%Z).
  { clear - A B. destruct A as [_ [i Ei]], B as [_ [j Ej]]. Z.to_euclidean_division_equations; lia. }
  destruct Dd as [E0|[E0|[E0|[[G1 G2]|[G1 G2]]]]].
  - destruct (both n S D psi' psi M Hb Hk L0 1 (0) ext_hh ltac:(lia) A B 2 0 ltac:(lia) ltac:(lia) ltac:(lia) ltac:(lia)) as (c & Y & X). destruct (both0 n S D psi' psi M Hb Hk N0 0 (0) ext_hh_n ltac:(lia) A B 0 ltac:(lia) ltac:(lia) ltac:(lia)) as (YN & XN). rewrite hh_1 in X, Y. rewrite hh_n in XN, YN. rewrite E0 in *. idx. rewrite hh_m2_1 by lra. apply tov. rewrite (Rplus_opp_r_uniq _ _ XN) in X. rewrite (Rplus_opp_r_uniq _ _ YN) in Y. step1 X Y.
  - destruct (both n S D psi' psi M Hb Hk L0 1 (0) ext_hh ltac:(lia) A B 1 1 ltac:(lia) ltac:(lia) ltac:(lia) ltac:(lia)) as (c & Y & X). destruct (both n S D psi' psi M Hb Hk N0 0 (0) ext_hh_n ltac:(lia) A B 0 0 ltac:(lia) ltac:(lia) ltac:(lia) ltac:(lia)) as (cn & YN & XN). rewrite hh_1 in X, Y. rewrite hh_n in XN, YN. rewrite E0 in *. idx. cbn [t_scale_hh]. rewrite !nmul_V, !Rmult_1_r. num_in X. num_in Y. num_in XN. num_in YN. unfold tr_hh_0.
    destruct (Z.eqb_spec M S) as [EM|NM].
    + unfold lc. cbn [fold_right fst snd]. rewrite nmul_V, nadd_V. f_equal. rewrite EM. replace (Z.min S (S + 0 - 0)) with S by lia. ring.
    + assert (P0 : 0 < hf S). { destruct A as [A _]. assert (G : (0 < S)%Z) by lia. apply hf_lt in G. unfold hf in *. lra. }
      unfold lc. cbn [fold_right fst snd]. change half with hf. ev. f_equal. match type of X with - (?a - ?b) = _ => set (x := a) in *; set (xT := b) in * end. match type of Y with - (?a - ?b) = _ => set (y := a) in *; set (yT := b) in * end.
      assert (Ec : c = - (x - xT) / (2 * hf S)) by (rewrite X; field; lra). assert (EY : y = (y + yT - - (y - yT)) / 2) by field. rewrite EY, Y, YN, <- XN, Ec. field. lra.
  - destruct (both n S D psi' psi M Hb Hk L0 1 (0) ext_hh ltac:(lia) A B 0 2 ltac:(lia) ltac:(lia) ltac:(lia) ltac:(lia)) as (c & Y & X). destruct (both0 n S D psi' psi M Hb Hk N0 0 (0) ext_hh_n ltac:(lia) A B 0 ltac:(lia) ltac:(lia) ltac:(lia)) as (YN & XN). rewrite hh_1 in X, Y. rewrite hh_n in XN, YN. rewrite E0 in *. idx. rewrite hh_p2_1 by lra. apply tov. rewrite (Rplus_opp_r_uniq _ _ XN) in X. rewrite (Rplus_opp_r_uniq _ _ YN) in Y. step1 X Y.
  - destruct (both0 n S D psi' psi M Hb Hk L0 1 (0) ext_hh ltac:(lia) A B 2 ltac:(lia) ltac:(lia) ltac:(lia)) as (Y & X). destruct (both0 n S D psi' psi M Hb Hk N0 0 (0) ext_hh_n ltac:(lia) A B 0 ltac:(lia) ltac:(lia) ltac:(lia)) as (YN & XN). rewrite hh_1 in X, Y. rewrite hh_n in XN, YN. out. destruct D; [lia| |]; (apply tov; lra).
  - destruct (both0 n S D psi' psi M Hb Hk L0 1 (0) ext_hh ltac:(lia) A B 2 ltac:(lia) ltac:(lia) ltac:(lia)) as (Y & X). destruct (both0 n S D psi' psi M Hb Hk N0 0 (0) ext_hh_n ltac:(lia) A B 0 ltac:(lia) ltac:(lia) ltac:(lia)) as (YN & XN). rewrite hh_1 in X, Y. rewrite hh_n in XN, YN. out. destruct D; [lia| |]; (apply tov; lra).
Qed.
End HH.

Section SM.
Variables (p q : nat) (Hp : (p < n)%nat) (Hq : (q < n)%nat).
Notation Xk := (fun b => E [(true, b, p); (false, b, q)]).
Let L0 : list (R * list fop) := [(1, [(true, true, p); (false, false, q)])].
Let N0 : list (R * list fop) := [(1, [(true, false, p); (false, false, q)]); (1, [(true, true, p); (false, true, q)])].
Lemma ext_sm : extremal n psi' psi L0.
Proof. split; [repeat constructor; assumption|]. intros M' M1. unfold comb, L0. cbn [derL der dM1 map app sc fold_right fst snd]. ring. Qed.
Lemma ext_dm_n : extremal n psi' psi N0.
Proof. split; [repeat constructor; assumption|]. intros M' M1. unfold comb, N0. cbn [derL der dM1 map app sc fold_right fst snd]. ring. Qed.
Lemma sm_0 M' M1 : comb n psi' psi (itL 0 L0) M' M1 = E [(true, true, p); (false, false, q)] M' M1.
Proof. unfold comb, L0. cbn [itL fold_right fst snd]. ring. Qed.
Lemma sm_1 M' M1 : comb n psi' psi (itL 1 L0) M' M1 = Xk false M' M1 - Xk true M' M1.
Proof. unfold comb, L0. cbn [itL derL der dP1 map app sc fold_right fst snd]. ring. Qed.
Lemma dm_n M' M1 : comb n psi' psi (itL 0 N0) M' M1 = Xk false M' M1 + Xk true M' M1.
Proof. unfold comb, N0. cbn [itL fold_right fst snd]. ring. Qed.
Lemma main_sm : member S M -> member (S + D) (M + -2) ->
  V (E [(true, true, p); (false, false, q)] (Z.min S (S + D - -2) + -2) (Z.min S (S + D - -2))) *! scale_sm (S + D + 1) (S + 1) M = V (E [(true, true, p); (false, false, q)] (M + -2) M).
Proof.
  intros A B. destruct (ranges S D M (-2) A B) as (R1 & R2 & R3 & R4 & R5 & R6). rewrite scale_sm_at.
  assert (Dd : (D = -2 \/ D = 0 \/ D = 2 \/ ((D + 2) / 2 < 0 /\ D < -2) \/ (3 <= (D + 2) / 2 /\ 2 < D))%Z).
  { clear - A B. destruct A as [_ [i Ei]], B as [_ [j Ej]]. Z.to_euclidean_division_equations; lia. }
  destruct Dd as [E0|[E0|[E0|[[G1 G2]|[G1 G2]]]]].
  - destruct (both n S D psi' psi M Hb Hk L0 0 (-2) ext_sm ltac:(lia) A B 2 0 ltac:(lia) ltac:(lia) ltac:(lia) ltac:(lia)) as (c & Y & X). rewrite sm_0 in X, Y. rewrite E0 in *. idx. rewrite SmultScale.sm_m2 by lra. apply tov. step scaledp X Y.
  - destruct (both n S D psi' psi M Hb Hk L0 0 (-2) ext_sm ltac:(lia) A B 1 1 ltac:(lia) ltac:(lia) ltac:(lia) ltac:(lia)) as (c & Y & X). rewrite sm_0 in X, Y. rewrite E0 in *. idx. rewrite SmultScale.sm_0 by lra. apply tov. step scaledp X Y.
  - destruct (both n S D psi' psi M Hb Hk L0 0 (-2) ext_sm ltac:(lia) A B 0 2 ltac:(lia) ltac:(lia) ltac:(lia) ltac:(lia)) as (c & Y & X). rewrite sm_0 in X, Y. rewrite E0 in *. idx. rewrite SmultScale.sm_p2 by lra. apply tov. step scaledp X Y.
  - destruct (both0 n S D psi' psi M Hb Hk L0 0 (-2) ext_sm ltac:(lia) A B 2 ltac:(lia) ltac:(lia) ltac:(lia)) as (Y & X). rewrite sm_0 in X, Y. out. apply tov. lra.
  - destruct (both0 n S D psi' psi M Hb Hk L0 0 (-2) ext_sm ltac:(lia) A B 2 ltac:(lia) ltac:(lia) ltac:(lia)) as (Y & X). rewrite sm_0 in X, Y. out. apply tov. lra.
Qed.
Lemma main_dm1 k (M0 := Z.min S (S + D - 0)) : (k < 2)%nat -> member S M -> member (S + D) (M + 0) ->
  mdown_dm1 (fun k p q => E [(true, negb (k =? 0)%nat, p); (false, negb (k =? 0)%nat, q)] (M0 + 0)%Z M0) (S + D + 1) (S + 1) M k p q = V (Xk (negb (k =? 0)%nat) (M + 0)%Z M).
Proof.
  subst M0. intros Hkk A B. unfold mdown_dm1. replace (S + D + 1 - (S + 1))%Z with D by lia. destruct (ranges S D M 0 A B) as (R1 & R2 & R3 & R4 & R5 & R6). cbv beta.
  assert (Dd : (D = -4 \/ D = -2 \/ D = 0 \/ D = 2 \/ D = 4 \/ ((D + 4) / 2 < 0 /\ D < -2) \/ ((- D + 4) / 2 < 0 /\ 2 < D))%Z).
  { clear - A B. destruct A as [_ [i Ei]], B as [_ [j Ej]]. Z.to_euclidean_division_equations; lia. }
  destruct Dd as [E0|[E0|[E0|[E0|[E0|[[G1 G2]|[G1 G2]]]]]]].
  - destruct (both0 n S D psi' psi M Hb Hk L0 1 (0) ext_sm ltac:(lia) A B 2 ltac:(lia) ltac:(lia) ltac:(lia)) as (Y & X). destruct (both0 n S D psi' psi M Hb Hk N0 0 (0) ext_dm_n ltac:(lia) A B 0 ltac:(lia) ltac:(lia) ltac:(lia)) as (YN & XN). rewrite sm_1 in X, Y. rewrite dm_n in XN, YN.  rewrite E0 in *. cbn [Z.abs Z.opp]. rewrite scale_dm_lo by lia. idx. rewrite ?hf_add, ?(hfz 4). rewrite dm_2 by lra. (destruct k as [|[|]]; [| |lia]; cbn [Nat.eqb negb]; apply tov;  nra).
  - destruct (both n S D psi' psi M Hb Hk L0 1 (0) ext_sm ltac:(lia) A B 2 0 ltac:(lia) ltac:(lia) ltac:(lia) ltac:(lia)) as (c & Y & X). destruct (both0 n S D psi' psi M Hb Hk N0 0 (0) ext_dm_n ltac:(lia) A B 0 ltac:(lia) ltac:(lia) ltac:(lia)) as (YN & XN). rewrite sm_1 in X, Y. rewrite dm_n in XN, YN. rewrite (Rplus_opp_r_uniq _ _ XN) in X. rewrite (Rplus_opp_r_uniq _ _ YN) in Y. rewrite E0 in *. cbn [Z.abs Z.opp].  rewrite scale_dm_lo by lia. idx. rewrite ?hf_add, ?(hfz 2). rewrite dm_1 by lra. (destruct k as [|[|]]; [| |lia]; cbn [Nat.eqb negb]; apply tov; [step1 X Y | step1d X Y XN YN]).
  - destruct (both n S D psi' psi M Hb Hk L0 1 (0) ext_sm ltac:(lia) A B 1 1 ltac:(lia) ltac:(lia) ltac:(lia) ltac:(lia)) as (c & Y & X). destruct (both n S D psi' psi M Hb Hk N0 0 (0) ext_dm_n ltac:(lia) A B 0 0 ltac:(lia) ltac:(lia) ltac:(lia) ltac:(lia)) as (cn & YN & XN). rewrite sm_1 in X, Y. rewrite dm_n in XN, YN. rewrite E0 in *. cbn [Z.abs Z.opp]. rewrite scale_dm_lo by lia. idx. cbn [t_scale_dm]. num_in X. num_in Y. num_in XN. num_in YN. unfold tr_dm1_0. replace (Z.max (S + 0 + 1) (S + 1) - 1)%Z with S by lia.
    destruct (Z.eqb_spec M S) as [EM|NM]; [|destruct (Z.eqb_spec M (- S)) as [EM|NM']].
    + destruct k as [|[|]]; [| |lia]; unfold lc; cbn [fold_right fst snd Nat.eqb negb]; ev; f_equal; rewrite EM; replace (Z.min S (S + 0 - 0)) with S by lia; ring.
    + rewrite EM, hf_opp in Y. assert (P0 : 0 < hf S). { destruct A as [A _]. assert (G : (0 < S)%Z) by lia. apply hf_lt in G. unfold hf in *. lra. }
      destruct k as [|[|]]; [| |lia]; unfold lc; cbn [fold_right fst snd Nat.eqb negb]; ev; f_equal; rewrite EM in *; lra.
    + assert (P0 : 0 < hf S). { destruct A as [A _]. assert (G : (0 < S)%Z) by lia. apply hf_lt in G. unfold hf in *. lra. }
      match type of X with ?a - ?b = _ => set (x := a) in *; set (xT := b) in * end. match type of Y with ?a - ?b = _ => set (y := a) in *; set (yT := b) in * end.
      assert (Ec : c = (x - xT) / (2 * hf S)) by (rewrite X; field; lra). assert (EY : y = (y + yT + (y - yT)) / 2) by field. assert (EYT : yT = (y + yT - (y - yT)) / 2) by field. rewrite Y, YN, <- XN, Ec in EY, EYT.
      destruct k as [|[|]]; [| |lia]; unfold lc; cbn [fold_right fst snd Nat.eqb negb]; change half with hf; fold x; fold xT; fold y; fold yT; ev; f_equal; [rewrite EY|rewrite EYT]; field; lra.
  - destruct (both n S D psi' psi M Hb Hk L0 1 (0) ext_sm ltac:(lia) A B 0 2 ltac:(lia) ltac:(lia) ltac:(lia) ltac:(lia)) as (c & Y & X). destruct (both0 n S D psi' psi M Hb Hk N0 0 (0) ext_dm_n ltac:(lia) A B 0 ltac:(lia) ltac:(lia) ltac:(lia)) as (YN & XN). rewrite sm_1 in X, Y. rewrite dm_n in XN, YN. rewrite (Rplus_opp_r_uniq _ _ XN) in X. rewrite (Rplus_opp_r_uniq _ _ YN) in Y. rewrite E0 in *. cbn [Z.abs Z.opp].  rewrite scale_dm_hi by lia. change (- 2)%Z with (-2)%Z. idx. rewrite ?hf_add, ?(hfz 2). rewrite dm_1 by lra. (destruct k as [|[|]]; [| |lia]; cbn [Nat.eqb negb]; apply tov; [step1 X Y | step1d X Y XN YN]).
  - destruct (both0 n S D psi' psi M Hb Hk L0 1 (0) ext_sm ltac:(lia) A B 2 ltac:(lia) ltac:(lia) ltac:(lia)) as (Y & X). destruct (both0 n S D psi' psi M Hb Hk N0 0 (0) ext_dm_n ltac:(lia) A B 0 ltac:(lia) ltac:(lia) ltac:(lia)) as (YN & XN). rewrite sm_1 in X, Y. rewrite dm_n in XN, YN.  rewrite E0 in *. cbn [Z.abs Z.opp]. rewrite scale_dm_hi by lia. change (- 4)%Z with (-4)%Z. idx. rewrite ?hf_add, ?(hfz 4). rewrite dm_2 by lra. (destruct k as [|[|]]; [| |lia]; cbn [Nat.eqb negb]; apply tov;  nra).
  - destruct (both0 n S D psi' psi M Hb Hk L0 1 (0) ext_sm ltac:(lia) A B 2 ltac:(lia) ltac:(lia) ltac:(lia)) as (Y & X). destruct (both0 n S D psi' psi M Hb Hk N0 0 (0) ext_dm_n ltac:(lia) A B 0 ltac:(lia) ltac:(lia) ltac:(lia)) as (YN & XN). rewrite sm_1 in X, Y. rewrite dm_n in XN, YN.  rewrite scale_dm_lo by lia. out. destruct (- Z.abs D)%Z eqn:EA; [lia| |]; (destruct k as [|[|]]; [| |lia]; cbn [Nat.eqb negb]; apply tov;  lra).
  - destruct (both0 n S D psi' psi M Hb Hk L0 1 (0) ext_sm ltac:(lia) A B 2 ltac:(lia) ltac:(lia) ltac:(lia)) as (Y & X). destruct (both0 n S D psi' psi M Hb Hk N0 0 (0) ext_dm_n ltac:(lia) A B 0 ltac:(lia) ltac:(lia) ltac:(lia)) as (YN & XN). rewrite sm_1 in X, Y. rewrite dm_n in XN, YN.  rewrite scale_dm_hi by lia. out. destruct (- Z.abs D)%Z eqn:EA; [lia| |]; (destruct k as [|[|]]; [| |lia]; cbn [Nat.eqb negb]; apply tov;  lra).
Qed.
End SM.
End One.
