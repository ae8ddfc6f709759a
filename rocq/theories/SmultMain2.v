(** One creator with two annihilators. *)
From Coq Require Import List NArith Arith Bool ZArith Reals Lia Lra.
From Verif Require Import Star FockSpec LsisUpdModel SmultSpec SmultAlg SmultClosed SmultComm SmultTens SmultScale SmultModel SmultMain1.
Import ListNotations.
Local Open Scope R_scope.

Ltac unf := cbn [itL derL der dP1 dM1 map app sc fold_right fst snd].
(** the closed forms [X], [Y] of a component that is scaled by [sqrt rho] *)
Ltac simple lem X Y rho F := num_in X; num_in Y; pose proof (lem _ _ _ rho _ _ X Y ltac:(pos) ltac:(rat)) as F.
Ltac simple1 X Y rho F := num_in X; num_in Y; pose proof (scaled1 _ _ _ rho _ _ X Y ltac:(pos) ltac:(rat)) as F.
Ltac poly X Y rho F := num_in X; num_in Y; pose proof (scaled _ _ _ _ _ rho _ _ X Y ltac:(pos) ltac:(rat)) as F.
Ltac lcs := unfold lc; cbn [fold_right fst snd]; change half with hf; ev; f_equal.
Section PHH.
Variables (n : nat) (S D : Z) (psi' psi : Z -> vec Rs) (M : Z).
Hypothesis Hb : multiplet n (S + D) psi'.
Hypothesis Hk : multiplet n S psi.
Notation E := (E n psi' psi).
Variables (p q r : nat) (Hp : (p < n)%nat) (Hq : (q < n)%nat) (Hr : (r < n)%nat).
(** block [k] at [r; p; q] *)
Definition Xp (o k : bool) (r p q : nat) : Z -> Z -> R := E [(true, k, p); (false, k, q); (false, o, r)].
Let L3 : list (R * list fop) := [(1, [(true, true, p); (false, false, q); (false, false, r)])].
Let D1 : list (R * list fop) := [(1, [(true, false, p); (false, false, q); (false, false, r)]); (1, [(true, true, p); (false, true, q); (false, false, r)])].
Let D2 : list (R * list fop) := [(1, [(true, false, p); (false, false, q); (false, false, r)]); (- (1), [(true, true, p); (false, true, r); (false, false, q)])].
Ltac S1 x b b' a c l Ha Hc := sw (E_swap n psi' psi [x] false b b' a c l _ _ Ha Hc).
Lemma ext_3 : extremal n psi' psi L3.
Proof. split; [repeat constructor; assumption|]. intros M' M1. unfold comb, L3. unf. ring. Qed.
Lemma ext_1 : extremal n psi' psi D1.
Proof. split; [repeat constructor; assumption|]. intros M' M1. unfold comb, D1. unf. ring. Qed.
Lemma ext_2 : extremal n psi' psi D2.
Proof. split; [repeat constructor; assumption|]. intros M' M1. unfold comb, D2. unf. sw (E_swap n psi' psi [(true, true, p)] false false false r q [] M' M1 Hr Hq). ring. Qed.
Lemma t_1 M' M1 : comb n psi' psi (itL 1 L3) M' M1 = Xp false false r p q M' M1 - Xp false true r p q M' M1 + Xp false true q p r M' M1.
Proof. unfold comb, L3, Xp. unf. sw (E_swap n psi' psi [(true, true, p)] false false true q r [] M' M1 Hq Hr). ring. Qed.
Lemma d1_0 M' M1 : comb n psi' psi (itL 0 D1) M' M1 = Xp false false r p q M' M1 + Xp false true r p q M' M1.
Proof. unfold comb, D1, Xp. unf. ring. Qed.
Lemma d2_0 M' M1 : comb n psi' psi (itL 0 D2) M' M1 = Xp false false r p q M' M1 - Xp false true q p r M' M1.
Proof. unfold comb, D2, Xp. unf. ring. Qed.
Lemma t_2 M' M1 : comb n psi' psi (itL 2 L3) M' M1 = 2 * (Xp true true r p q M' M1 + Xp true false q p r M' M1 - Xp true false r p q M' M1).
Proof. unfold comb, L3, Xp. unf. sw (E_swap n psi' psi [(true, false, p)] false true false q r [] M' M1 Hq Hr). ring. Qed.
Lemma d1_1 M' M1 : comb n psi' psi (itL 1 D1) M' M1 = - (Xp true false r p q M' M1 + Xp true true r p q M' M1).
Proof. unfold comb, D1, Xp. unf. sw (E_swap n psi' psi [(true, false, p)] false true false q r [] M' M1 Hq Hr). ring. Qed.
Lemma d2_1 M' M1 : comb n psi' psi (itL 1 D2) M' M1 = Xp true false q p r M' M1 - Xp true true r p q M' M1.
Proof. unfold comb, D2, Xp. unf. sw (E_swap n psi' psi [(true, false, p)] false true false q r [] M' M1 Hq Hr). sw (E_swap n psi' psi [(true, false, p)] false true false r q [] M' M1 Hr Hq). sw (E_swap n psi' psi [(true, true, p)] false true true r q [] M' M1 Hr Hq). ring. Qed.
Lemma phh_other dm_0 op k : D <> 1%Z -> D <> (-1)%Z -> mdown_phh dm_0 (S + D + 1) op (S + 1) M k r p q = V (dm_0 k r p q) *! scale_h (S + D + 1) op (S + 1) M.
Proof. intros N1 N2. unfold mdown_phh. replace (S + D + 1 - (S + 1))%Z with D by lia. destruct D as [|[x|x|]|[x|x|]]; try reflexivity; lia. Qed.
Lemma main_phh0 k (M0 := Z.min S (S + D - (-1))) : (k < 2)%nat -> member S M -> member (S + D) (M + -1) ->
  mdown_phh (fun k r p q => Xp false (negb (k =? 0)%nat) r p q (M0 + -1)%Z M0) (S + D + 1) 0 (S + 1) M k r p q = V (Xp false (negb (k =? 0)%nat) r p q (M + -1)%Z M).
Proof.
  subst M0. intros Hkk A B. destruct (ranges S D M (-1) A B) as (R1 & R2 & R3 & R4 & R5 & R6).
  assert (Dd : (D = -3 \/ D = 3 \/ D = -1 \/ D = 1 \/ ((D + 3) / 2 < 0 /\ D < -3) \/ (4 <= (D + 3) / 2 /\ 3 < D))%Z).
  { clear - A B. destruct A as [_ [i Ei]], B as [_ [j Ej]]. Z.to_euclidean_division_equations; lia. }
  destruct Dd as [E0|[E0|[E0|[E0|[[G1 G2]|[G1 G2]]]]]].
  - rewrite phh_other by lia. destruct (both n S D psi' psi M Hb Hk L3 1 (-1) ext_3 ltac:(lia) A B 3 0 ltac:(lia) ltac:(lia) ltac:(lia) ltac:(lia)) as (c & YT & XT). destruct (both0 n S D psi' psi M Hb Hk D1 0 (-1) ext_1 ltac:(lia) A B 1 ltac:(lia) ltac:(lia) ltac:(lia)) as (Y1 & X1). destruct (both0 n S D psi' psi M Hb Hk D2 0 (-1) ext_2 ltac:(lia) A B 1 ltac:(lia) ltac:(lia) ltac:(lia)) as (Y2 & X2). rewrite t_1 in XT, YT. rewrite d1_0 in X1, Y1. rewrite d2_0 in X2, Y2. rewrite scale_h_at, E0 in *. idx. rewrite h_m3_0 by lra. match goal with |- context [V (sqrt ?w)] => set (rho := w) end. assert (Hrho : 0 <= rho) by (unfold rho; pos). cbv beta in *. match type of X2 with ?a - ?b = _ => set (x0 := a) in *; set (xT := b) in * end. match type of Y2 with ?a - ?b = _ => set (y0 := a) in *; set (yT := b) in * end. match type of X1 with _ + ?b = _ => set (x1 := b) in * end. match type of Y1 with _ + ?b = _ => set (y1 := b) in * end. assert (X1' : x1 = - x0) by lra. assert (XT' : xT = x0) by lra. assert (Y1' : y1 = - y0) by lra. assert (YT' : yT = y0) by lra. rewrite X1', XT' in XT. rewrite Y1', YT' in YT.
    num_in XT. num_in YT. pose proof (scaled1 _ _ _ rho _ _ XT YT Hrho ltac:(unfold rho; rat)) as F. destruct k as [|[|]]; [| |lia]; cbn [Nat.eqb negb]; apply tov; fold x0 x1 y0 y1; [|rewrite X1', Y1']; lra.
  - rewrite phh_other by lia. destruct (both n S D psi' psi M Hb Hk L3 1 (-1) ext_3 ltac:(lia) A B 0 3 ltac:(lia) ltac:(lia) ltac:(lia) ltac:(lia)) as (c & YT & XT). destruct (both0 n S D psi' psi M Hb Hk D1 0 (-1) ext_1 ltac:(lia) A B 1 ltac:(lia) ltac:(lia) ltac:(lia)) as (Y1 & X1). destruct (both0 n S D psi' psi M Hb Hk D2 0 (-1) ext_2 ltac:(lia) A B 1 ltac:(lia) ltac:(lia) ltac:(lia)) as (Y2 & X2). rewrite t_1 in XT, YT. rewrite d1_0 in X1, Y1. rewrite d2_0 in X2, Y2. rewrite scale_h_at, E0 in *. idx. rewrite h_p3_0 by lra. match goal with |- context [V (sqrt ?w)] => set (rho := w) end. assert (Hrho : 0 <= rho) by (unfold rho; pos). cbv beta in *. match type of X2 with ?a - ?b = _ => set (x0 := a) in *; set (xT := b) in * end. match type of Y2 with ?a - ?b = _ => set (y0 := a) in *; set (yT := b) in * end. match type of X1 with _ + ?b = _ => set (x1 := b) in * end. match type of Y1 with _ + ?b = _ => set (y1 := b) in * end. assert (X1' : x1 = - x0) by lra. assert (XT' : xT = x0) by lra. assert (Y1' : y1 = - y0) by lra. assert (YT' : yT = y0) by lra. rewrite X1', XT' in XT. rewrite Y1', YT' in YT.
    num_in XT. num_in YT. pose proof (scaled1 _ _ _ rho _ _ XT YT Hrho ltac:(unfold rho; rat)) as F. destruct k as [|[|]]; [| |lia]; cbn [Nat.eqb negb]; apply tov; fold x0 x1 y0 y1; [|rewrite X1', Y1']; lra.
  - destruct (both n S D psi' psi M Hb Hk L3 1 (-1) ext_3 ltac:(lia) A B 2 1 ltac:(lia) ltac:(lia) ltac:(lia) ltac:(lia)) as (c & YT & XT). destruct (both n S D psi' psi M Hb Hk D1 0 (-1) ext_1 ltac:(lia) A B 1 0 ltac:(lia) ltac:(lia) ltac:(lia) ltac:(lia)) as (c1 & Y1 & X1). destruct (both n S D psi' psi M Hb Hk D2 0 (-1) ext_2 ltac:(lia) A B 1 0 ltac:(lia) ltac:(lia) ltac:(lia) ltac:(lia)) as (c2 & Y2 & X2). rewrite t_1 in XT, YT. rewrite d1_0 in X1, Y1. rewrite d2_0 in X2, Y2.
    unfold mdown_phh. replace (S + D + 1 - (S + 1))%Z with D by lia. replace (S + 1 - 1)%Z with S by lia. rewrite !scale_h_at, E0 in *. idx. rewrite !h_m1_0 by lra. match goal with |- context [V (sqrt ?w)] => set (rho := w) end. assert (Hrho : 0 <= rho) by (unfold rho; pos). cbv beta in *. match type of X2 with ?a - ?b = _ => set (x0 := a) in *; set (xT := b) in * end. match type of Y2 with ?a - ?b = _ => set (y0 := a) in *; set (yT := b) in * end. match type of X1 with _ + ?b = _ => set (x1 := b) in * end. match type of Y1 with _ + ?b = _ => set (y1 := b) in * end.
    unfold tr_phh_0. destruct (Z.eqb_spec M S) as [EM|NM].
    + assert (Ew : sqrt rho = 1). { replace rho with 1; [apply sqrt_1|]. unfold rho. rewrite EM. hfs. first [ring | field; lra]. } rewrite Ew. destruct k as [|[|]]; [| |lia]; unfold lc; cbn [fold_right fst snd Nat.eqb negb]; ev; f_equal; unfold Xp; rewrite EM; match goal with |- context [Z.min ?a ?b] => replace (Z.min a b) with S%Z by lia end; ring.
    + assert (P0 : 0 < 2 * hf S - 1). { destruct A as [A [j Ej]], B as [B _]. assert (G : (1 < S)%Z) by lia. apply hf_lt in G. unfold hf in *. lra. }
      num_in XT. num_in YT. pose proof (scaled _ _ _ _ _ rho _ _ XT YT Hrho ltac:(unfold rho; rat)) as FT. num_in X1. num_in Y1. pose proof (scaledp _ _ _ rho _ _ X1 Y1 Hrho ltac:(unfold rho; rat)) as F1'. num_in X2. num_in Y2. pose proof (scaledp _ _ _ rho _ _ X2 Y2 Hrho ltac:(unfold rho; rat)) as F2'.
      clear XT YT X1 Y1 X2 Y2. match type of FT with ?t * ?P0 = ?x * _ * ?P => assert (FT' : t = x * sqrt rho * P / P0) by (rewrite <- FT; field; lra) end. clear FT.
      assert (EY0 : y0 = ((y0 - y1 + yT) + (y0 + y1) + (y0 - yT)) / 3) by field. rewrite FT', F1', F2' in EY0. assert (EY1 : y1 = (y0 + y1) - y0) by ring. rewrite F1', EY0 in EY1.
      destruct k as [|[|]]; [| |lia]; cbn [Nat.eqb negb]; fold x0 x1 y0 y1; fold xT; lcs; [rewrite EY0|rewrite EY1]; field; lra.
  - destruct (both n S D psi' psi M Hb Hk L3 1 (-1) ext_3 ltac:(lia) A B 1 2 ltac:(lia) ltac:(lia) ltac:(lia) ltac:(lia)) as (c & YT & XT). destruct (both n S D psi' psi M Hb Hk D1 0 (-1) ext_1 ltac:(lia) A B 0 1 ltac:(lia) ltac:(lia) ltac:(lia) ltac:(lia)) as (c1 & Y1 & X1). destruct (both n S D psi' psi M Hb Hk D2 0 (-1) ext_2 ltac:(lia) A B 0 1 ltac:(lia) ltac:(lia) ltac:(lia) ltac:(lia)) as (c2 & Y2 & X2). rewrite t_1 in XT, YT. rewrite d1_0 in X1, Y1. rewrite d2_0 in X2, Y2.
    unfold mdown_phh. replace (S + D + 1 - (S + 1))%Z with D by lia. replace (S + 1 - 1)%Z with S by lia. rewrite !scale_h_at, E0 in *. idx. rewrite !h_p1_0 by lra. match goal with |- context [V (sqrt ?w)] => set (rho := w) end. assert (Hrho : 0 <= rho) by (unfold rho; pos). cbv beta in *. match type of X2 with ?a - ?b = _ => set (x0 := a) in *; set (xT := b) in * end. match type of Y2 with ?a - ?b = _ => set (y0 := a) in *; set (yT := b) in * end. match type of X1 with _ + ?b = _ => set (x1 := b) in * end. match type of Y1 with _ + ?b = _ => set (y1 := b) in * end.
    unfold tr_phh_2. destruct (Z.eqb_spec M S) as [EM|NM].
    + assert (Ew : sqrt rho = 1). { replace rho with 1; [apply sqrt_1|]. unfold rho. rewrite EM. hfs. first [ring | field; lra]. } rewrite Ew. destruct k as [|[|]]; [| |lia]; unfold lc; cbn [fold_right fst snd Nat.eqb negb]; ev; f_equal; unfold Xp; rewrite EM; match goal with |- context [Z.min ?a ?b] => replace (Z.min a b) with S%Z by lia end; ring.
    + assert (P0 : 0 < hf S). { destruct A as [A [j Ej]], B as [B _]. assert (G : (0 < S)%Z) by lia. apply hf_lt in G. unfold hf in *. lra. }
      num_in XT. num_in YT. pose proof (scaled _ _ _ _ _ rho _ _ XT YT Hrho ltac:(unfold rho; rat)) as FT. num_in X1. num_in Y1. pose proof (scaledp _ _ _ rho _ _ X1 Y1 Hrho ltac:(unfold rho; rat)) as F1'. num_in X2. num_in Y2. pose proof (scaledp _ _ _ rho _ _ X2 Y2 Hrho ltac:(unfold rho; rat)) as F2'.
      clear XT YT X1 Y1 X2 Y2. match type of FT with ?t * ?P0 = ?x * _ * ?P => assert (FT' : t = x * sqrt rho * P / P0) by (rewrite <- FT; field; lra) end. clear FT.
      assert (EY0 : y0 = ((y0 - y1 + yT) + (y0 + y1) + (y0 - yT)) / 3) by field. rewrite FT', F1', F2' in EY0. assert (EY1 : y1 = (y0 + y1) - y0) by ring. rewrite F1', EY0 in EY1.
      destruct k as [|[|]]; [| |lia]; cbn [Nat.eqb negb]; fold x0 x1 y0 y1; fold xT; lcs; [rewrite EY0|rewrite EY1]; field; lra.
  - rewrite phh_other by lia. destruct (both0 n S D psi' psi M Hb Hk L3 1 (-1) ext_3 ltac:(lia) A B 3 ltac:(lia) ltac:(lia) ltac:(lia)) as (YT & XT). destruct (both0 n S D psi' psi M Hb Hk D1 0 (-1) ext_1 ltac:(lia) A B 1 ltac:(lia) ltac:(lia) ltac:(lia)) as (Y1 & X1). destruct (both0 n S D psi' psi M Hb Hk D2 0 (-1) ext_2 ltac:(lia) A B 1 ltac:(lia) ltac:(lia) ltac:(lia)) as (Y2 & X2). rewrite t_1 in XT, YT. rewrite d1_0 in X1, Y1. rewrite d2_0 in X2, Y2. rewrite scale_h_at. out. destruct k as [|[|]]; [| |lia]; cbn [Nat.eqb negb]; apply tov; lra.
  - rewrite phh_other by lia. destruct (both0 n S D psi' psi M Hb Hk L3 1 (-1) ext_3 ltac:(lia) A B 3 ltac:(lia) ltac:(lia) ltac:(lia)) as (YT & XT). destruct (both0 n S D psi' psi M Hb Hk D1 0 (-1) ext_1 ltac:(lia) A B 1 ltac:(lia) ltac:(lia) ltac:(lia)) as (Y1 & X1). destruct (both0 n S D psi' psi M Hb Hk D2 0 (-1) ext_2 ltac:(lia) A B 1 ltac:(lia) ltac:(lia) ltac:(lia)) as (Y2 & X2). rewrite t_1 in XT, YT. rewrite d1_0 in X1, Y1. rewrite d2_0 in X2, Y2. rewrite scale_h_at. out. destruct k as [|[|]]; [| |lia]; cbn [Nat.eqb negb]; apply tov; lra.
Qed.
Lemma main_phh1 k (M0 := Z.min S (S + D - (1))) : (k < 2)%nat -> member S M -> member (S + D) (M + 1) ->
  mdown_phh (fun k r p q => Xp true (negb (k =? 0)%nat) r p q (M0 + 1)%Z M0) (S + D + 1) 1 (S + 1) M k r p q = V (Xp true (negb (k =? 0)%nat) r p q (M + 1)%Z M).
Proof.
  subst M0. intros Hkk A B. destruct (ranges S D M (1) A B) as (R1 & R2 & R3 & R4 & R5 & R6).
  assert (Dd : (D = -3 \/ D = 3 \/ D = -1 \/ D = 1 \/ ((D + 3) / 2 < 0 /\ D < -3) \/ (4 <= (D + 3) / 2 /\ 3 < D))%Z).
  { clear - A B. destruct A as [_ [i Ei]], B as [_ [j Ej]]. Z.to_euclidean_division_equations; lia. }
  destruct Dd as [E0|[E0|[E0|[E0|[[G1 G2]|[G1 G2]]]]]].
  - rewrite phh_other by lia. destruct (both n S D psi' psi M Hb Hk L3 2 (1) ext_3 ltac:(lia) A B 3 0 ltac:(lia) ltac:(lia) ltac:(lia) ltac:(lia)) as (c & YT & XT). destruct (both0 n S D psi' psi M Hb Hk D1 1 (1) ext_1 ltac:(lia) A B 1 ltac:(lia) ltac:(lia) ltac:(lia)) as (Y1 & X1). destruct (both0 n S D psi' psi M Hb Hk D2 1 (1) ext_2 ltac:(lia) A B 1 ltac:(lia) ltac:(lia) ltac:(lia)) as (Y2 & X2). rewrite t_2 in XT, YT. rewrite d1_1 in X1, Y1. rewrite d2_1 in X2, Y2. rewrite scale_h_at, E0 in *. idx. rewrite h_m3_1 by lra. match goal with |- context [V (sqrt ?w)] => set (rho := w) end. assert (Hrho : 0 <= rho) by (unfold rho; pos). cbv beta in *. match type of X2 with ?a - ?b = _ => set (xT := a) in *; set (x1 := b) in * end. match type of Y2 with ?a - ?b = _ => set (yT := a) in *; set (y1 := b) in * end. match type of X1 with - (?b + _) = _ => set (x0 := b) in * end. match type of Y1 with - (?b + _) = _ => set (y0 := b) in * end. assert (X0' : x0 = - x1) by lra. assert (XT' : xT = x1) by lra. assert (Y0' : y0 = - y1) by lra. assert (YT' : yT = y1) by lra. rewrite X0', XT' in XT. rewrite Y0', YT' in YT.
    num_in XT. num_in YT. pose proof (scaled1 _ _ _ rho _ _ XT YT Hrho ltac:(unfold rho; rat)) as F. destruct k as [|[|]]; [| |lia]; cbn [Nat.eqb negb]; apply tov; fold x0 x1 y0 y1; [rewrite X0', Y0'|]; lra.
  - rewrite phh_other by lia. destruct (both n S D psi' psi M Hb Hk L3 2 (1) ext_3 ltac:(lia) A B 0 3 ltac:(lia) ltac:(lia) ltac:(lia) ltac:(lia)) as (c & YT & XT). destruct (both0 n S D psi' psi M Hb Hk D1 1 (1) ext_1 ltac:(lia) A B 1 ltac:(lia) ltac:(lia) ltac:(lia)) as (Y1 & X1). destruct (both0 n S D psi' psi M Hb Hk D2 1 (1) ext_2 ltac:(lia) A B 1 ltac:(lia) ltac:(lia) ltac:(lia)) as (Y2 & X2). rewrite t_2 in XT, YT. rewrite d1_1 in X1, Y1. rewrite d2_1 in X2, Y2. rewrite scale_h_at, E0 in *. idx. rewrite h_p3_1 by lra. match goal with |- context [V (sqrt ?w)] => set (rho := w) end. assert (Hrho : 0 <= rho) by (unfold rho; pos). cbv beta in *. match type of X2 with ?a - ?b = _ => set (xT := a) in *; set (x1 := b) in * end. match type of Y2 with ?a - ?b = _ => set (yT := a) in *; set (y1 := b) in * end. match type of X1 with - (?b + _) = _ => set (x0 := b) in * end. match type of Y1 with - (?b + _) = _ => set (y0 := b) in * end. assert (X0' : x0 = - x1) by lra. assert (XT' : xT = x1) by lra. assert (Y0' : y0 = - y1) by lra. assert (YT' : yT = y1) by lra. rewrite X0', XT' in XT. rewrite Y0', YT' in YT.
    num_in XT. num_in YT. pose proof (scaled1 _ _ _ rho _ _ XT YT Hrho ltac:(unfold rho; rat)) as F. destruct k as [|[|]]; [| |lia]; cbn [Nat.eqb negb]; apply tov; fold x0 x1 y0 y1; [rewrite X0', Y0'|]; lra.
  - destruct (both n S D psi' psi M Hb Hk L3 2 (1) ext_3 ltac:(lia) A B 2 1 ltac:(lia) ltac:(lia) ltac:(lia) ltac:(lia)) as (c & YT & XT). destruct (both n S D psi' psi M Hb Hk D1 1 (1) ext_1 ltac:(lia) A B 1 0 ltac:(lia) ltac:(lia) ltac:(lia) ltac:(lia)) as (c1 & Y1 & X1). destruct (both n S D psi' psi M Hb Hk D2 1 (1) ext_2 ltac:(lia) A B 1 0 ltac:(lia) ltac:(lia) ltac:(lia) ltac:(lia)) as (c2 & Y2 & X2). rewrite t_2 in XT, YT. rewrite d1_1 in X1, Y1. rewrite d2_1 in X2, Y2.
    unfold mdown_phh. replace (S + D + 1 - (S + 1))%Z with D by lia. replace (S + 1 - 1)%Z with S by lia. rewrite !scale_h_at, E0 in *. idx. rewrite !h_m1_1 by lra. match goal with |- context [V (sqrt ?w)] => set (rho := w) end. assert (Hrho : 0 <= rho) by (unfold rho; pos). cbv beta in *. match type of X2 with ?a - ?b = _ => set (xT := a) in *; set (x1 := b) in * end. match type of Y2 with ?a - ?b = _ => set (yT := a) in *; set (y1 := b) in * end. match type of X1 with - (?b + _) = _ => set (x0 := b) in * end. match type of Y1 with - (?b + _) = _ => set (y0 := b) in * end.
    unfold tr_phh_1. destruct (Z.eqb_spec M (S - 2)) as [EM|NM].
    + assert (Ew : sqrt rho = 1). { replace rho with 1; [apply sqrt_1|]. unfold rho. rewrite EM. hfs. first [ring | field; lra]. } rewrite Ew. destruct k as [|[|]]; [| |lia]; unfold lc; cbn [fold_right fst snd Nat.eqb negb]; ev; f_equal; unfold Xp; rewrite EM; match goal with |- context [Z.min ?a ?b] => replace (Z.min a b) with (S - 2)%Z by lia end; ring.
    + assert (P0 : 0 < 2 * hf S - 1). { destruct A as [A [j Ej]], B as [B _]. assert (G : (1 < S)%Z) by lia. apply hf_lt in G. unfold hf in *. lra. }
      num_in XT. num_in YT. pose proof (scaled _ _ _ _ _ rho _ _ XT YT Hrho ltac:(unfold rho; rat)) as FT. num_in X1. num_in Y1. pose proof (scaledn _ _ _ rho _ _ X1 Y1 Hrho ltac:(unfold rho; rat)) as F1'. num_in X2. num_in Y2. pose proof (scaledn _ _ _ rho _ _ X2 Y2 Hrho ltac:(unfold rho; rat)) as F2'.
      clear XT YT X1 Y1 X2 Y2. match type of FT with ?t * ?P0 = ?x * _ * ?P => assert (FT' : t = x * sqrt rho * P / P0) by (rewrite <- FT; field; lra) end. clear FT.
      assert (EY1 : y1 = (2 * (y1 + yT - y0) / 2 - - (y0 + y1) - (- - (y0 + y1) + (yT - y1)) + (y0 + y1)) / 3) by field.
      assert (EY1' : y1 = (2 * (y1 + yT - y0) / 2 - - (y0 + y1) - (yT - y1)) / 3) by field. rewrite FT', F1', F2' in EY1'. clear EY1. assert (EY0 : y0 = - - (y0 + y1) - y1) by ring. rewrite F1', EY1' in EY0. rename EY1' into EY1.
      destruct k as [|[|]]; [| |lia]; cbn [Nat.eqb negb]; fold x0 x1 y0 y1; fold xT; lcs; [rewrite EY0|rewrite EY1]; field; lra.
  - destruct (both n S D psi' psi M Hb Hk L3 2 (1) ext_3 ltac:(lia) A B 1 2 ltac:(lia) ltac:(lia) ltac:(lia) ltac:(lia)) as (c & YT & XT). destruct (both n S D psi' psi M Hb Hk D1 1 (1) ext_1 ltac:(lia) A B 0 1 ltac:(lia) ltac:(lia) ltac:(lia) ltac:(lia)) as (c1 & Y1 & X1). destruct (both n S D psi' psi M Hb Hk D2 1 (1) ext_2 ltac:(lia) A B 0 1 ltac:(lia) ltac:(lia) ltac:(lia) ltac:(lia)) as (c2 & Y2 & X2). rewrite t_2 in XT, YT. rewrite d1_1 in X1, Y1. rewrite d2_1 in X2, Y2.
    unfold mdown_phh. replace (S + D + 1 - (S + 1))%Z with D by lia. replace (S + 1 - 1)%Z with S by lia. rewrite !scale_h_at, E0 in *. idx. rewrite !h_p1_1 by lra. match goal with |- context [V (sqrt ?w)] => set (rho := w) end. assert (Hrho : 0 <= rho) by (unfold rho; pos). cbv beta in *. match type of X2 with ?a - ?b = _ => set (xT := a) in *; set (x1 := b) in * end. match type of Y2 with ?a - ?b = _ => set (yT := a) in *; set (y1 := b) in * end. match type of X1 with - (?b + _) = _ => set (x0 := b) in * end. match type of Y1 with - (?b + _) = _ => set (y0 := b) in * end.
    unfold tr_phh_3. destruct (Z.eqb_spec M S) as [EM|NM].
    + assert (Ew : sqrt rho = 1). { replace rho with 1; [apply sqrt_1|]. unfold rho. rewrite EM. hfs. first [ring | field; lra]. } rewrite Ew. destruct k as [|[|]]; [| |lia]; unfold lc; cbn [fold_right fst snd Nat.eqb negb]; ev; f_equal; unfold Xp; rewrite EM; match goal with |- context [Z.min ?a ?b] => replace (Z.min a b) with S%Z by lia end; ring.
    + assert (P0 : 0 < hf S). { destruct A as [A [j Ej]], B as [B _]. assert (G : (0 < S)%Z) by lia. apply hf_lt in G. unfold hf in *. lra. }
      num_in XT. num_in YT. pose proof (scaled _ _ _ _ _ rho _ _ XT YT Hrho ltac:(unfold rho; rat)) as FT. num_in X1. num_in Y1. pose proof (scaledp _ _ _ rho _ _ X1 Y1 Hrho ltac:(unfold rho; rat)) as F1'. num_in X2. num_in Y2. pose proof (scaledp _ _ _ rho _ _ X2 Y2 Hrho ltac:(unfold rho; rat)) as F2'.
      clear XT YT X1 Y1 X2 Y2. match type of FT with ?t * ?P0 = ?x * _ * ?P => assert (FT' : t = x * sqrt rho * P / P0) by (rewrite <- FT; field; lra) end. clear FT.
      assert (EY1 : y1 = (2 * (y1 + yT - y0) / 2 - - (y0 + y1) - (- - (y0 + y1) + (yT - y1)) + (y0 + y1)) / 3) by field.
      assert (EY1' : y1 = (2 * (y1 + yT - y0) / 2 - - (y0 + y1) - (yT - y1)) / 3) by field. rewrite FT', F1', F2' in EY1'. clear EY1. assert (EY0 : y0 = - - (y0 + y1) - y1) by ring. rewrite F1', EY1' in EY0. rename EY1' into EY1.
      destruct k as [|[|]]; [| |lia]; cbn [Nat.eqb negb]; fold x0 x1 y0 y1; fold xT; lcs; [rewrite EY0|rewrite EY1]; field; lra.
  - rewrite phh_other by lia. destruct (both0 n S D psi' psi M Hb Hk L3 2 (1) ext_3 ltac:(lia) A B 3 ltac:(lia) ltac:(lia) ltac:(lia)) as (YT & XT). destruct (both0 n S D psi' psi M Hb Hk D1 1 (1) ext_1 ltac:(lia) A B 1 ltac:(lia) ltac:(lia) ltac:(lia)) as (Y1 & X1). destruct (both0 n S D psi' psi M Hb Hk D2 1 (1) ext_2 ltac:(lia) A B 1 ltac:(lia) ltac:(lia) ltac:(lia)) as (Y2 & X2). rewrite t_2 in XT, YT. rewrite d1_1 in X1, Y1. rewrite d2_1 in X2, Y2. rewrite scale_h_at. out. destruct k as [|[|]]; [| |lia]; cbn [Nat.eqb negb]; apply tov; lra.
  - rewrite phh_other by lia. destruct (both0 n S D psi' psi M Hb Hk L3 2 (1) ext_3 ltac:(lia) A B 3 ltac:(lia) ltac:(lia) ltac:(lia)) as (YT & XT). destruct (both0 n S D psi' psi M Hb Hk D1 1 (1) ext_1 ltac:(lia) A B 1 ltac:(lia) ltac:(lia) ltac:(lia)) as (Y1 & X1). destruct (both0 n S D psi' psi M Hb Hk D2 1 (1) ext_2 ltac:(lia) A B 1 ltac:(lia) ltac:(lia) ltac:(lia)) as (Y2 & X2). rewrite t_2 in XT, YT. rewrite d1_1 in X1, Y1. rewrite d2_1 in X2, Y2. rewrite scale_h_at. out. destruct k as [|[|]]; [| |lia]; cbn [Nat.eqb negb]; apply tov; lra.
Qed.
End PHH.
