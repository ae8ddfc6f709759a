(** Two creators with two annihilators. *)
From Coq Require Import List NArith Arith Bool ZArith Reals Lia Lra.
From Verif Require Import Star FockSpec LsisUpdModel SmultSpec SmultAlg SmultClosed SmultComm SmultTens SmultScale SmultModel SmultMain1.
Import ListNotations.
Local Open Scope R_scope.

Ltac unf := cbn [itL derL der dP1 dM1 map app sc fold_right fst snd].
Section DM2.
Variables (n : nat) (S D : Z) (psi' psi : Z -> vec Rs) (M : Z).
Hypothesis Hb : multiplet n (S + D) psi'.
Hypothesis Hk : multiplet n S psi.
Notation E := (E n psi' psi).
Variables (p q r s : nat) (Hp : (p < n)%nat) (Hq : (q < n)%nat) (Hr : (r < n)%nat) (Hs : (s < n)%nat).
(** the block of the spins [o] and [t] at [p; q; r; s] *)
Definition Xd (o t : bool) (p q r s : nat) : Z -> Z -> R := E [(true, o, p); (true, t, r); (false, t, s); (false, o, q)].
Let L4 : list (R * list fop) := [(1, [(true, true, p); (true, true, r); (false, false, s); (false, false, q)])].
Let W1 : list (R * list fop) := [(1, [(true, false, p); (true, true, r); (false, false, s); (false, false, q)]); (- (1), [(true, true, p); (true, false, r); (false, false, s); (false, false, q)])].
Let W2 : list (R * list fop) := [(1, [(true, false, p); (true, true, r); (false, false, s); (false, false, q)]); (1, [(true, true, p); (true, true, r); (false, true, s); (false, false, q)])].
Let W3 : list (R * list fop) := [(1, [(true, false, p); (true, true, r); (false, false, s); (false, false, q)]); (1, [(true, true, p); (true, true, r); (false, false, s); (false, true, q)])].
Let N1 : list (R * list fop) := [(1, [(true, false, p); (true, false, r); (false, false, s); (false, false, q)]); (1, [(true, false, p); (true, true, r); (false, true, s); (false, false, q)]); (1, [(true, true, p); (true, false, r); (false, false, s); (false, true, q)]); (1, [(true, true, p); (true, true, r); (false, true, s); (false, true, q)])].
Let N2 : list (R * list fop) := [(1, [(true, false, p); (true, true, r); (false, true, s); (false, false, q)]); (1, [(true, true, p); (true, false, r); (false, false, s); (false, true, q)]); (1, [(true, false, p); (true, true, r); (false, true, q); (false, false, s)]); (1, [(true, true, p); (true, false, r); (false, false, q); (false, true, s)])].
Lemma ext_L4 : extremal n psi' psi L4.
Proof. split; [repeat constructor; assumption|]. intros M' M1. unfold comb, L4. unf.  ring. Qed.
Lemma ext_W1 : extremal n psi' psi W1.
Proof. split; [repeat constructor; assumption|]. intros M' M1. unfold comb, W1. unf.  ring. Qed.
Lemma ext_W2 : extremal n psi' psi W2.
Proof. split; [repeat constructor; assumption|]. intros M' M1. unfold comb, W2. unf.  ring. Qed.
Lemma ext_W3 : extremal n psi' psi W3.
Proof. split; [repeat constructor; assumption|]. intros M' M1. unfold comb, W3. unf.  ring. Qed.
Lemma ext_N1 : extremal n psi' psi N1.
Proof. split; [repeat constructor; assumption|]. intros M' M1. unfold comb, N1. unf.  ring. Qed.
Lemma ext_N2 : extremal n psi' psi N2.
Proof. split; [repeat constructor; assumption|]. intros M' M1. unfold comb, N2. unf. sw (E_swap n psi' psi [(true, false, p); (true, true, r)] false false false q s [] M' M1 Hq Hs). sw (E_swap n psi' psi [(true, true, p); (true, false, r)] false false false q s [] M' M1 Hq Hs). sw (E_swap n psi' psi [(true, true, p); (true, true, r)] false true false q s [] M' M1 Hq Hs). sw (E_swap n psi' psi [(true, true, p); (true, true, r)] false false true q s [] M' M1 Hq Hs). ring. Qed.
Lemma c_t2 M' M1 : comb n psi' psi (itL 2 L4) M' M1 = 2 * (Xd false false p q r s M' M1 + Xd true true p q r s M' M1 - Xd false true p q r s M' M1 - Xd true false p q r s M' M1 + Xd false true p s r q M' M1 + Xd true false p s r q M' M1).
Proof. unfold comb, L4, Xd. unf. try sw (E_swap n psi' psi [(true, false, p); (true, true, r)] false false true s q [] M' M1 Hs Hq). try sw (E_swap n psi' psi [(true, true, p); (true, false, r)] false true false s q [] M' M1 Hs Hq). ring. Qed.
Lemma c_w1 M' M1 : comb n psi' psi (itL 1 W1) M' M1 = Xd true false p q r s M' M1 - Xd false true p q r s M' M1 + Xd false true p s r q M' M1 - Xd true false p s r q M' M1.
Proof. unfold comb, W1, Xd. unf. try sw (E_swap n psi' psi [(true, false, p); (true, true, r)] false false true s q [] M' M1 Hs Hq). try sw (E_swap n psi' psi [(true, true, p); (true, false, r)] false true false s q [] M' M1 Hs Hq). ring. Qed.
Lemma c_w2 M' M1 : comb n psi' psi (itL 1 W2) M' M1 = Xd false false p q r s M' M1 - Xd true true p q r s M' M1 + Xd false true p s r q M' M1 - Xd true false p s r q M' M1.
Proof. unfold comb, W2, Xd. unf. try sw (E_swap n psi' psi [(true, false, p); (true, true, r)] false false true s q [] M' M1 Hs Hq). try sw (E_swap n psi' psi [(true, true, p); (true, false, r)] false true false s q [] M' M1 Hs Hq). ring. Qed.
Lemma c_w3 M' M1 : comb n psi' psi (itL 1 W3) M' M1 = Xd false false p q r s M' M1 - Xd true true p q r s M' M1 - Xd false true p q r s M' M1 + Xd true false p q r s M' M1.
Proof. unfold comb, W3, Xd. unf. try sw (E_swap n psi' psi [(true, false, p); (true, true, r)] false false true s q [] M' M1 Hs Hq). try sw (E_swap n psi' psi [(true, true, p); (true, false, r)] false true false s q [] M' M1 Hs Hq). ring. Qed.
Lemma c_n1 M' M1 : comb n psi' psi (itL 0 N1) M' M1 = Xd false false p q r s M' M1 + Xd false true p q r s M' M1 + Xd true false p q r s M' M1 + Xd true true p q r s M' M1.
Proof. unfold comb, N1, Xd. unf.  ring. Qed.
Lemma c_n2 M' M1 : comb n psi' psi (itL 0 N2) M' M1 = Xd false true p q r s M' M1 + Xd true false p q r s M' M1 + Xd false true p s r q M' M1 + Xd true false p s r q M' M1.
Proof. unfold comb, N2, Xd. unf.  ring. Qed.
Lemma same b M' M1 : Xd b b p s r q M' M1 = - Xd b b p q r s M' M1.
Proof. unfold Xd. sw (E_swap n psi' psi [(true, b, p); (true, b, r)] false b b q s [] M' M1 Hq Hs). reflexivity. Qed.
Lemma solve_y (t w1 w2 w3 n1 n2 y0 y1 y2 y3 yT1 yT2 : R) : 2 * (y0 + y3 - y1 - y2 + yT1 + yT2) = t -> y2 - y1 + yT1 - yT2 = w1 -> y0 - y3 + yT1 - yT2 = w2 -> y0 - y3 - y1 + y2 = w3 -> y0 + y1 + y2 + y3 = n1 -> y1 + y2 + yT1 + yT2 = n2 ->
  let B := (n1 + n2 - t / 2) / 3 in let b := (w2 - w3 - w1) / 2 in let a := (w2 + w3 - w1) / 2 in y0 = (n1 - B + a) / 2 /\ y1 = (B + b) / 2 /\ y2 = (B - b) / 2 /\ y3 = (n1 - B - a) / 2.
Proof. intros; subst; unfold B, b, a; repeat split; field. Qed.
Definition so1 (k : nat) : bool := (2 <=? k)%nat.
Notation Xk := (fun k => Xd (so1 k) (Nat.odd k)).
Lemma main_dm2 k (M0 := Z.min S (S + D - 0)) : (k < 4)%nat -> member S M -> member (S + D) (M + 0) ->
  mdown_dm2 (fun k p q r s => Xk k p q r s (M0 + 0)%Z M0) (S + D + 1) (S + 1) M k p q r s = V (Xk k p q r s (M + 0)%Z M).
Proof.
  subst M0. intros Hk4 A B. unfold mdown_dm2. replace (S + D + 1 - (S + 1))%Z with D by lia. destruct (ranges S D M 0 A B) as (R1 & R2 & R3 & R4 & R5 & R6). cbv beta.
  assert (Dd : (D = -4 \/ D = -2 \/ D = 0 \/ D = 2 \/ D = 4 \/ ((D + 4) / 2 < 0 /\ D < -4) \/ ((- D + 4) / 2 < 0 /\ 4 < D))%Z).
  { clear - A B. destruct A as [_ [i Ei]], B as [_ [j Ej]]. Z.to_euclidean_division_equations; lia. }
  pose proof (same false (Z.min S (S + D - 0) + 0)%Z (Z.min S (S + D - 0))) as HZ0. pose proof (same true (Z.min S (S + D - 0) + 0)%Z (Z.min S (S + D - 0))) as HZ3.
  destruct Dd as [E0|[E0|[E0|[E0|[E0|[[G1 G2]|[G1 G2]]]]]]].
  - destruct (both n S D psi' psi M Hb Hk L4 2 (0) ext_L4 ltac:(lia) A B 4 0 ltac:(lia) ltac:(lia) ltac:(lia) ltac:(lia)) as (c & YT & XT). destruct (both0 n S D psi' psi M Hb Hk W1 1 (0) ext_W1 ltac:(lia) A B 2 ltac:(lia) ltac:(lia) ltac:(lia)) as (YW1 & XW1). destruct (both0 n S D psi' psi M Hb Hk W2 1 (0) ext_W2 ltac:(lia) A B 2 ltac:(lia) ltac:(lia) ltac:(lia)) as (YW2 & XW2). destruct (both0 n S D psi' psi M Hb Hk W3 1 (0) ext_W3 ltac:(lia) A B 2 ltac:(lia) ltac:(lia) ltac:(lia)) as (YW3 & XW3). destruct (both0 n S D psi' psi M Hb Hk N1 0 (0) ext_N1 ltac:(lia) A B 0 ltac:(lia) ltac:(lia) ltac:(lia)) as (YN1 & XN1). destruct (both0 n S D psi' psi M Hb Hk N2 0 (0) ext_N2 ltac:(lia) A B 0 ltac:(lia) ltac:(lia) ltac:(lia)) as (YN2 & XN2). rewrite c_t2 in XT, YT. rewrite c_w1 in XW1, YW1. rewrite c_w2 in XW2, YW2. rewrite c_w3 in XW3, YW3. rewrite c_n1 in XN1, YN1. rewrite c_n2 in XN2, YN2. rewrite E0 in *. cbn [Z.abs Z.opp]. rewrite !scale_dm_lo by lia. idx. rewrite !dm_2 by lra. match goal with |- context [V (sqrt ?w)] => set (rho := w) end. assert (Hrho : 0 <= rho) by (unfold rho; pos). match type of XN1 with ?a + ?b + ?d + ?e = _ => set (x0 := a) in *; set (x1 := b) in *; set (x2 := d) in *; set (x3 := e) in * end. match type of XN2 with _ + _ + ?b + ?d = _ => set (xT1 := b) in *; set (xT2 := d) in * end. match type of YN1 with ?a + ?b + ?d + ?e = _ => set (y0 := a) in *; set (y1 := b) in *; set (y2 := d) in *; set (y3 := e) in * end. match type of YN2 with _ + _ + ?b + ?d = _ => set (yT1 := b) in *; set (yT2 := d) in * end. 
    num_in XT. num_in YT. pose proof (scaled1 _ _ _ rho _ _ XT YT Hrho ltac:(unfold rho; rat)) as F. clear XT YT.
    assert (X1 : x1 = - x0) by (clear - XW1 XW2 XW3 XN1 XN2; lra). assert (X2 : x2 = - x0) by (clear - XW1 XW2 XW3 XN1 XN2; lra). assert (X3 : x3 = x0) by (clear - XW1 XW2 XW3 XN1 XN2; lra). assert (QXT1 : xT1 = x0) by (clear - XW1 XW2 XW3 XN1 XN2; lra). assert (XT2 : xT2 = x0) by (clear - XW1 XW2 XW3 XN1 XN2; lra). assert (Y1 : y1 = - y0) by (clear - YW1 YW2 YW3 YN1 YN2; lra). assert (Y2 : y2 = - y0) by (clear - YW1 YW2 YW3 YN1 YN2; lra). assert (Y3 : y3 = y0) by (clear - YW1 YW2 YW3 YN1 YN2; lra). assert (YT1 : yT1 = y0) by (clear - YW1 YW2 YW3 YN1 YN2; lra). assert (YT2 : yT2 = y0) by (clear - YW1 YW2 YW3 YN1 YN2; lra). rewrite X1, X2, X3, QXT1, XT2, Y1, Y2, Y3, YT1, YT2 in F.
    destruct k as [|[|[|[|]]]]; [| | | |lia]; cbn [so1 Nat.leb Nat.odd Nat.even negb]; apply tov; fold x0 x1 x2 x3 y0 y1 y2 y3; fold xT1 xT2; rewrite ?X1, ?X2, ?X3, ?Y1, ?Y2, ?Y3; clear - F; lra.
  - destruct (both n S D psi' psi M Hb Hk L4 2 (0) ext_L4 ltac:(lia) A B 3 1 ltac:(lia) ltac:(lia) ltac:(lia) ltac:(lia)) as (c & YT & XT). destruct (both n S D psi' psi M Hb Hk W1 1 (0) ext_W1 ltac:(lia) A B 2 0 ltac:(lia) ltac:(lia) ltac:(lia) ltac:(lia)) as (c1 & YW1 & XW1). destruct (both n S D psi' psi M Hb Hk W2 1 (0) ext_W2 ltac:(lia) A B 2 0 ltac:(lia) ltac:(lia) ltac:(lia) ltac:(lia)) as (c2 & YW2 & XW2). destruct (both n S D psi' psi M Hb Hk W3 1 (0) ext_W3 ltac:(lia) A B 2 0 ltac:(lia) ltac:(lia) ltac:(lia) ltac:(lia)) as (c3 & YW3 & XW3). destruct (both0 n S D psi' psi M Hb Hk N1 0 (0) ext_N1 ltac:(lia) A B 0 ltac:(lia) ltac:(lia) ltac:(lia)) as (YN1 & XN1). destruct (both0 n S D psi' psi M Hb Hk N2 0 (0) ext_N2 ltac:(lia) A B 0 ltac:(lia) ltac:(lia) ltac:(lia)) as (YN2 & XN2). rewrite c_t2 in XT, YT. rewrite c_w1 in XW1, YW1. rewrite c_w2 in XW2, YW2. rewrite c_w3 in XW3, YW3. rewrite c_n1 in XN1, YN1. rewrite c_n2 in XN2, YN2. rewrite E0 in *. cbn [Z.abs Z.opp]. rewrite !scale_dm_lo by lia. idx. rewrite !dm_1 by lra. match goal with |- context [V (sqrt ?w)] => set (rho := w) end. assert (Hrho : 0 <= rho) by (unfold rho; pos).
    unfold tr_dm2_0. replace (Z.max (S + -2 + 1) (S + 1) - 1)%Z with S%Z by lia. match type of XN1 with ?a + ?b + ?d + ?e = _ => set (x0 := a) in *; set (x1 := b) in *; set (x2 := d) in *; set (x3 := e) in * end. match type of XN2 with _ + _ + ?b + ?d = _ => set (xT1 := b) in *; set (xT2 := d) in * end. match type of YN1 with ?a + ?b + ?d + ?e = _ => set (y0 := a) in *; set (y1 := b) in *; set (y2 := d) in *; set (y3 := e) in * end. match type of YN2 with _ + _ + ?b + ?d = _ => set (yT1 := b) in *; set (yT2 := d) in * end. 
    destruct (Z.eqb_spec M (S - 2)) as [EM|NM]; [|destruct (Z.eqb_spec M (2 - S)) as [EM|NM']].
    + assert (Ew : sqrt rho = 1). { replace rho with 1; [apply sqrt_1|]. unfold rho. rewrite EM. unfold hf. repeat (rewrite minus_IZR || rewrite plus_IZR). field. unfold hf in *. lra. } rewrite Ew.
      assert (E1 : Z.min S (S + -2 - 0) = M) by lia. clear - E1 Hk4. destruct k as [|[|[|[|]]]]; [| | | |lia]; cbn [so1 Nat.leb Nat.odd Nat.even negb]; unfold lc; cbn [fold_right fst snd]; ev; f_equal; rewrite E1; ring.
    + assert (Ew : sqrt rho = 1). { replace rho with 1; [apply sqrt_1|]. unfold rho. rewrite EM. unfold hf. repeat (rewrite minus_IZR || rewrite plus_IZR || rewrite opp_IZR). field. unfold hf in *. lra. } rewrite Ew.
      num_in XT. num_in YT. pose proof (scaled _ _ _ _ _ rho _ _ XT YT Hrho ltac:(unfold rho; rat)) as FT. num_in XW1. num_in YW1. pose proof (scaled1 _ _ _ rho _ _ XW1 YW1 Hrho ltac:(unfold rho; rat)) as FW1. num_in XW2. num_in YW2. pose proof (scaled1 _ _ _ rho _ _ XW2 YW2 Hrho ltac:(unfold rho; rat)) as FW2. num_in XW3. num_in YW3. pose proof (scaled1 _ _ _ rho _ _ XW3 YW3 Hrho ltac:(unfold rho; rat)) as FW3. rewrite Ew, ?Rmult_1_r in FT, FW1, FW2, FW3.
      assert (P0 : 0 < hf S - 1). { destruct A as [A [j Ej]], B as [B _]. assert (G : (2 < S)%Z) by lia. apply hf_lt in G. unfold hf in *. lra. }
      assert (EM' : hf M = 1 - hf S). { rewrite EM. unfold hf. repeat (rewrite minus_IZR || rewrite plus_IZR || rewrite opp_IZR). field. }
      rewrite EM' in FT. clear XT YT XW1 XW2 XW3 YW1 YW2 YW3. match type of FT with ?t * _ = ?x * _ => assert (FT' : t = - x) end. { apply (Rmult_eq_reg_r (12 * (1 - hf S))); [|lra]. etransitivity; [etransitivity; [|exact FT]|]; ring. }
      clear FT. cbv beta in *. destruct k as [|[|[|[|]]]]; [| | | |lia]; cbn [so1 Nat.leb Nat.odd Nat.even negb]; fold x0 x1 x2 x3 y0 y1 y2 y3; fold xT1 xT2; unfold lc; cbn [fold_right fst snd]; ev; f_equal; clear - FT' FW1 FW2 FW3 YN1 YN2 XN1 XN2 HZ0 HZ3; lra.
    + assert (P0 : 0 < hf S - 1). { destruct A as [A [j Ej]], B as [B _]. assert (G : (2 < S)%Z) by lia. apply hf_lt in G. unfold hf in *. lra. }
      num_in XT. num_in YT. pose proof (scaled _ _ _ _ _ rho _ _ XT YT Hrho ltac:(unfold rho; rat)) as FT. num_in XW1. num_in YW1. pose proof (scaled1 _ _ _ rho _ _ XW1 YW1 Hrho ltac:(unfold rho; rat)) as FW1. num_in XW2. num_in YW2. pose proof (scaled1 _ _ _ rho _ _ XW2 YW2 Hrho ltac:(unfold rho; rat)) as FW2. num_in XW3. num_in YW3. pose proof (scaled1 _ _ _ rho _ _ XW3 YW3 Hrho ltac:(unfold rho; rat)) as FW3.
      match type of FT with ?t * ?P0 = ?x * _ * ?P => assert (FT' : t = x * sqrt rho * P / P0) by (rewrite <- FT; field; lra) end. clear FT XT YT XW1 XW2 XW3 YW1 YW2 YW3.
      destruct (solve_y _ _ _ _ _ _ _ _ _ _ _ _ FT' FW1 FW2 FW3 YN1 YN2) as (EY0 & EY1 & EY2 & EY3). cbv zeta in *. assert (Z1 : xT2 = - x1 - x2 - xT1) by lra. assert (Z2 : x3 = - x0 - x1 - x2) by lra.
      cbv beta in *. destruct k as [|[|[|[|]]]]; [| | | |lia]; cbn [so1 Nat.leb Nat.odd Nat.even negb]; fold x0 x1 x2 x3 y0 y1 y2 y3; fold xT1 xT2; unfold lc; cbn [fold_right fst snd]; change half with hf; rewrite ?HZ0, ?HZ3; fold x0 x3; ev; f_equal; [rewrite EY0|rewrite EY1|rewrite EY2|rewrite EY3]; rewrite ?Z1, ?Z2; field; lra.
  - destruct (both n S D psi' psi M Hb Hk L4 2 (0) ext_L4 ltac:(lia) A B 2 2 ltac:(lia) ltac:(lia) ltac:(lia) ltac:(lia)) as (c & YT & XT). destruct (both n S D psi' psi M Hb Hk W1 1 (0) ext_W1 ltac:(lia) A B 1 1 ltac:(lia) ltac:(lia) ltac:(lia) ltac:(lia)) as (c1 & YW1 & XW1). destruct (both n S D psi' psi M Hb Hk W2 1 (0) ext_W2 ltac:(lia) A B 1 1 ltac:(lia) ltac:(lia) ltac:(lia) ltac:(lia)) as (c2 & YW2 & XW2). destruct (both n S D psi' psi M Hb Hk W3 1 (0) ext_W3 ltac:(lia) A B 1 1 ltac:(lia) ltac:(lia) ltac:(lia) ltac:(lia)) as (c3 & YW3 & XW3). destruct (both n S D psi' psi M Hb Hk N1 0 (0) ext_N1 ltac:(lia) A B 0 0 ltac:(lia) ltac:(lia) ltac:(lia) ltac:(lia)) as (d1 & YN1 & XN1). destruct (both n S D psi' psi M Hb Hk N2 0 (0) ext_N2 ltac:(lia) A B 0 0 ltac:(lia) ltac:(lia) ltac:(lia) ltac:(lia)) as (d2 & YN2 & XN2). rewrite c_t2 in XT, YT. rewrite c_w1 in XW1, YW1. rewrite c_w2 in XW2, YW2. rewrite c_w3 in XW3, YW3. rewrite c_n1 in XN1, YN1. rewrite c_n2 in XN2, YN2. rewrite E0 in *. cbn [Z.abs Z.opp]. rewrite !scale_dm_lo by lia. idx. cbn [t_scale_dm]. num_in XT. num_in YT. unfold tr_dm2_1. replace (Z.max (S + 0 + 1) (S + 1) - 1)%Z with S by lia. match type of XN1 with ?a + ?b + ?d + ?e = _ => set (x0 := a) in *; set (x1 := b) in *; set (x2 := d) in *; set (x3 := e) in * end. match type of XN2 with _ + _ + ?b + ?d = _ => set (xT1 := b) in *; set (xT2 := d) in * end. match type of YN1 with ?a + ?b + ?d + ?e = _ => set (y0 := a) in *; set (y1 := b) in *; set (y2 := d) in *; set (y3 := e) in * end. match type of YN2 with _ + _ + ?b + ?d = _ => set (yT1 := b) in *; set (yT2 := d) in * end. 
    num_in XW1. num_in YW1. num_in XW2. num_in YW2. num_in XW3. num_in YW3. num_in XN1. num_in YN1. num_in XN2. num_in YN2. rewrite <- XN1 in YN1. rewrite <- XN2 in YN2.
    destruct (Z.eqb_spec M S) as [EM|NM]; [|destruct (Z.eqb_spec M (- S)) as [EM|NM']].
    + assert (E1 : Z.min S (S + 0 - 0) = M) by lia. clear - E1 Hk4. destruct k as [|[|[|[|]]]]; [| | | |lia]; cbn [so1 Nat.leb Nat.odd Nat.even negb]; unfold lc; cbn [fold_right fst snd]; ev; f_equal; rewrite E1; ring.
    + assert (EM' : hf M = - hf S) by (rewrite EM; apply hf_opp). rewrite EM' in YT, YW1, YW2, YW3.
      match type of YT with ?t = _ => match type of XT with ?x = _ => assert (FT : t = x) by (rewrite YT, XT; ring) end end.
      match type of YW1 with ?t = _ => match type of XW1 with ?x = _ => assert (FW1 : t = - x) by (rewrite YW1, XW1; ring) end end. match type of YW2 with ?t = _ => match type of XW2 with ?x = _ => assert (FW2 : t = - x) by (rewrite YW2, XW2; ring) end end. match type of YW3 with ?t = _ => match type of XW3 with ?x = _ => assert (FW3 : t = - x) by (rewrite YW3, XW3; ring) end end.
      clear XT YT XW1 XW2 XW3 YW1 YW2 YW3 XN1 XN2. cbv beta in *. destruct k as [|[|[|[|]]]]; [| | | |lia]; cbn [so1 Nat.leb Nat.odd Nat.even negb]; fold x0 x1 x2 x3 y0 y1 y2 y3; fold xT1 xT2; unfold lc; cbn [fold_right fst snd]; ev; f_equal; clear - FT FW1 FW2 FW3 YN1 YN2; lra.
    + assert (P0 : 1 <= hf S). { destruct A as [A [j Ej]], B as [B _]. assert (G : (2 <= S)%Z) by lia. apply hf_le in G. unfold hf in *. lra. }
      match type of YT with ?t = _ => match type of XT with ?x = _ => assert (FT : t = x * (2 * ((hf S + hf M) * (hf S + hf M) + (hf S - hf M) * (hf S - hf M) - 4 * (hf S + hf M) * (hf S - hf M) - (hf S + hf M) - (hf S - hf M))) / (4 * (hf S * (2 * hf S - 1)))) by (rewrite YT, XT; field; lra) end end.
      match type of YW1 with ?t = _ => match type of XW1 with ?x = _ => assert (FW1 : t = x * hf M / hf S) by (rewrite YW1, XW1; field; lra) end end. match type of YW2 with ?t = _ => match type of XW2 with ?x = _ => assert (FW2 : t = x * hf M / hf S) by (rewrite YW2, XW2; field; lra) end end. match type of YW3 with ?t = _ => match type of XW3 with ?x = _ => assert (FW3 : t = x * hf M / hf S) by (rewrite YW3, XW3; field; lra) end end.
      clear XT YT XW1 XW2 XW3 YW1 YW2 YW3 XN1 XN2. destruct (solve_y _ _ _ _ _ _ _ _ _ _ _ _ FT FW1 FW2 FW3 YN1 YN2) as (EY0 & EY1 & EY2 & EY3). cbv zeta in *.
      cbv beta in *. destruct k as [|[|[|[|]]]]; [| | | |lia]; cbn [so1 Nat.leb Nat.odd Nat.even negb]; fold x0 x1 x2 x3 y0 y1 y2 y3; fold xT1 xT2; unfold lc; cbn [fold_right fst snd]; change half with hf; rewrite ?HZ0, ?HZ3; fold x0 x3; ev; f_equal; [rewrite EY0|rewrite EY1|rewrite EY2|rewrite EY3]; field; lra.
  - destruct (both n S D psi' psi M Hb Hk L4 2 (0) ext_L4 ltac:(lia) A B 1 3 ltac:(lia) ltac:(lia) ltac:(lia) ltac:(lia)) as (c & YT & XT). destruct (both n S D psi' psi M Hb Hk W1 1 (0) ext_W1 ltac:(lia) A B 0 2 ltac:(lia) ltac:(lia) ltac:(lia) ltac:(lia)) as (c1 & YW1 & XW1). destruct (both n S D psi' psi M Hb Hk W2 1 (0) ext_W2 ltac:(lia) A B 0 2 ltac:(lia) ltac:(lia) ltac:(lia) ltac:(lia)) as (c2 & YW2 & XW2). destruct (both n S D psi' psi M Hb Hk W3 1 (0) ext_W3 ltac:(lia) A B 0 2 ltac:(lia) ltac:(lia) ltac:(lia) ltac:(lia)) as (c3 & YW3 & XW3). destruct (both0 n S D psi' psi M Hb Hk N1 0 (0) ext_N1 ltac:(lia) A B 0 ltac:(lia) ltac:(lia) ltac:(lia)) as (YN1 & XN1). destruct (both0 n S D psi' psi M Hb Hk N2 0 (0) ext_N2 ltac:(lia) A B 0 ltac:(lia) ltac:(lia) ltac:(lia)) as (YN2 & XN2). rewrite c_t2 in XT, YT. rewrite c_w1 in XW1, YW1. rewrite c_w2 in XW2, YW2. rewrite c_w3 in XW3, YW3. rewrite c_n1 in XN1, YN1. rewrite c_n2 in XN2, YN2. rewrite E0 in *. cbn [Z.abs Z.opp]. rewrite !scale_dm_hi by lia. change (- 2)%Z with (-2)%Z. idx. rewrite !hf_add, !(hfz 2). rewrite !dm_1 by lra. match goal with |- context [V (sqrt ?w)] => set (rho := w) end. assert (Hrho : 0 <= rho) by (unfold rho; pos).
    unfold tr_dm2_0. replace (Z.max (S + 2 + 1) (S + 1) - 1)%Z with (S + 2)%Z by lia. match type of XN1 with ?a + ?b + ?d + ?e = _ => set (x0 := a) in *; set (x1 := b) in *; set (x2 := d) in *; set (x3 := e) in * end. match type of XN2 with _ + _ + ?b + ?d = _ => set (xT1 := b) in *; set (xT2 := d) in * end. match type of YN1 with ?a + ?b + ?d + ?e = _ => set (y0 := a) in *; set (y1 := b) in *; set (y2 := d) in *; set (y3 := e) in * end. match type of YN2 with _ + _ + ?b + ?d = _ => set (yT1 := b) in *; set (yT2 := d) in * end. 
    destruct (Z.eqb_spec M ((S + 2) - 2)) as [EM|NM]; [|destruct (Z.eqb_spec M (2 - (S + 2))) as [EM|NM']].
    + assert (Ew : sqrt rho = 1). { replace rho with 1; [apply sqrt_1|]. unfold rho. rewrite EM. unfold hf. repeat (rewrite minus_IZR || rewrite plus_IZR). field. unfold hf in *. lra. } rewrite Ew.
      assert (E1 : Z.min S (S + 2 - 0) = M) by lia. clear - E1 Hk4. destruct k as [|[|[|[|]]]]; [| | | |lia]; cbn [so1 Nat.leb Nat.odd Nat.even negb]; unfold lc; cbn [fold_right fst snd]; ev; f_equal; rewrite E1; ring.
    + assert (Ew : sqrt rho = 1). { replace rho with 1; [apply sqrt_1|]. unfold rho. rewrite EM. unfold hf. repeat (rewrite minus_IZR || rewrite plus_IZR || rewrite opp_IZR). field. unfold hf in *. lra. } rewrite Ew.
      num_in XT. num_in YT. pose proof (scaled _ _ _ _ _ rho _ _ XT YT Hrho ltac:(unfold rho; rat)) as FT. num_in XW1. num_in YW1. pose proof (scaled1 _ _ _ rho _ _ XW1 YW1 Hrho ltac:(unfold rho; rat)) as FW1. num_in XW2. num_in YW2. pose proof (scaled1 _ _ _ rho _ _ XW2 YW2 Hrho ltac:(unfold rho; rat)) as FW2. num_in XW3. num_in YW3. pose proof (scaled1 _ _ _ rho _ _ XW3 YW3 Hrho ltac:(unfold rho; rat)) as FW3. rewrite Ew, ?Rmult_1_r in FT, FW1, FW2, FW3.
      assert (P0 : 0 < hf S). { destruct A as [A [j Ej]], B as [B _]. assert (G : (0 < S)%Z) by lia. apply hf_lt in G. unfold hf in *. lra. }
      assert (EM' : hf M = - hf S). { rewrite EM. unfold hf. repeat (rewrite minus_IZR || rewrite plus_IZR || rewrite opp_IZR). field. }
      rewrite EM' in FT. clear XT YT XW1 XW2 XW3 YW1 YW2 YW3. match type of FT with ?t * _ = ?x * _ => assert (FT' : t = - x) end. { apply (Rmult_eq_reg_r (12 * (hf S))); [|lra]. etransitivity; [etransitivity; [|exact FT]|]; ring. }
      clear FT. cbv beta in *. destruct k as [|[|[|[|]]]]; [| | | |lia]; cbn [so1 Nat.leb Nat.odd Nat.even negb]; fold x0 x1 x2 x3 y0 y1 y2 y3; fold xT1 xT2; unfold lc; cbn [fold_right fst snd]; ev; f_equal; clear - FT' FW1 FW2 FW3 YN1 YN2 XN1 XN2 HZ0 HZ3; lra.
    + assert (P0 : 0 < hf S). { destruct A as [A [j Ej]], B as [B _]. assert (G : (0 < S)%Z) by lia. apply hf_lt in G. unfold hf in *. lra. }
      num_in XT. num_in YT. pose proof (scaled _ _ _ _ _ rho _ _ XT YT Hrho ltac:(unfold rho; rat)) as FT. num_in XW1. num_in YW1. pose proof (scaled1 _ _ _ rho _ _ XW1 YW1 Hrho ltac:(unfold rho; rat)) as FW1. num_in XW2. num_in YW2. pose proof (scaled1 _ _ _ rho _ _ XW2 YW2 Hrho ltac:(unfold rho; rat)) as FW2. num_in XW3. num_in YW3. pose proof (scaled1 _ _ _ rho _ _ XW3 YW3 Hrho ltac:(unfold rho; rat)) as FW3.
      match type of FT with ?t * ?P0 = ?x * _ * ?P => assert (FT' : t = x * sqrt rho * P / P0) by (rewrite <- FT; field; lra) end. clear FT XT YT XW1 XW2 XW3 YW1 YW2 YW3.
      destruct (solve_y _ _ _ _ _ _ _ _ _ _ _ _ FT' FW1 FW2 FW3 YN1 YN2) as (EY0 & EY1 & EY2 & EY3). cbv zeta in *. assert (Z1 : xT2 = - x1 - x2 - xT1) by lra. assert (Z2 : x3 = - x0 - x1 - x2) by lra.
      cbv beta in *. destruct k as [|[|[|[|]]]]; [| | | |lia]; cbn [so1 Nat.leb Nat.odd Nat.even negb]; fold x0 x1 x2 x3 y0 y1 y2 y3; fold xT1 xT2; unfold lc; cbn [fold_right fst snd]; change half with hf; rewrite ?HZ0, ?HZ3; rewrite !hf_add, !(hfz 2); fold x0 x3; ev; f_equal; [rewrite EY0|rewrite EY1|rewrite EY2|rewrite EY3]; rewrite ?Z1, ?Z2; field; lra.
  - destruct (both n S D psi' psi M Hb Hk L4 2 (0) ext_L4 ltac:(lia) A B 0 4 ltac:(lia) ltac:(lia) ltac:(lia) ltac:(lia)) as (c & YT & XT). destruct (both0 n S D psi' psi M Hb Hk W1 1 (0) ext_W1 ltac:(lia) A B 2 ltac:(lia) ltac:(lia) ltac:(lia)) as (YW1 & XW1). destruct (both0 n S D psi' psi M Hb Hk W2 1 (0) ext_W2 ltac:(lia) A B 2 ltac:(lia) ltac:(lia) ltac:(lia)) as (YW2 & XW2). destruct (both0 n S D psi' psi M Hb Hk W3 1 (0) ext_W3 ltac:(lia) A B 2 ltac:(lia) ltac:(lia) ltac:(lia)) as (YW3 & XW3). destruct (both0 n S D psi' psi M Hb Hk N1 0 (0) ext_N1 ltac:(lia) A B 0 ltac:(lia) ltac:(lia) ltac:(lia)) as (YN1 & XN1). destruct (both0 n S D psi' psi M Hb Hk N2 0 (0) ext_N2 ltac:(lia) A B 0 ltac:(lia) ltac:(lia) ltac:(lia)) as (YN2 & XN2). rewrite c_t2 in XT, YT. rewrite c_w1 in XW1, YW1. rewrite c_w2 in XW2, YW2. rewrite c_w3 in XW3, YW3. rewrite c_n1 in XN1, YN1. rewrite c_n2 in XN2, YN2. rewrite E0 in *. cbn [Z.abs Z.opp]. rewrite !scale_dm_hi by lia. change (- 4)%Z with (-4)%Z. idx. rewrite !hf_add, !(hfz 4). rewrite !dm_2 by lra. match goal with |- context [V (sqrt ?w)] => set (rho := w) end. assert (Hrho : 0 <= rho) by (unfold rho; pos). match type of XN1 with ?a + ?b + ?d + ?e = _ => set (x0 := a) in *; set (x1 := b) in *; set (x2 := d) in *; set (x3 := e) in * end. match type of XN2 with _ + _ + ?b + ?d = _ => set (xT1 := b) in *; set (xT2 := d) in * end. match type of YN1 with ?a + ?b + ?d + ?e = _ => set (y0 := a) in *; set (y1 := b) in *; set (y2 := d) in *; set (y3 := e) in * end. match type of YN2 with _ + _ + ?b + ?d = _ => set (yT1 := b) in *; set (yT2 := d) in * end. 
    num_in XT. num_in YT. pose proof (scaled1 _ _ _ rho _ _ XT YT Hrho ltac:(unfold rho; rat)) as F. clear XT YT.
    assert (X1 : x1 = - x0) by (clear - XW1 XW2 XW3 XN1 XN2; lra). assert (X2 : x2 = - x0) by (clear - XW1 XW2 XW3 XN1 XN2; lra). assert (X3 : x3 = x0) by (clear - XW1 XW2 XW3 XN1 XN2; lra). assert (QXT1 : xT1 = x0) by (clear - XW1 XW2 XW3 XN1 XN2; lra). assert (XT2 : xT2 = x0) by (clear - XW1 XW2 XW3 XN1 XN2; lra). assert (Y1 : y1 = - y0) by (clear - YW1 YW2 YW3 YN1 YN2; lra). assert (Y2 : y2 = - y0) by (clear - YW1 YW2 YW3 YN1 YN2; lra). assert (Y3 : y3 = y0) by (clear - YW1 YW2 YW3 YN1 YN2; lra). assert (YT1 : yT1 = y0) by (clear - YW1 YW2 YW3 YN1 YN2; lra). assert (YT2 : yT2 = y0) by (clear - YW1 YW2 YW3 YN1 YN2; lra). rewrite X1, X2, X3, QXT1, XT2, Y1, Y2, Y3, YT1, YT2 in F.
    destruct k as [|[|[|[|]]]]; [| | | |lia]; cbn [so1 Nat.leb Nat.odd Nat.even negb]; apply tov; fold x0 x1 x2 x3 y0 y1 y2 y3; fold xT1 xT2; rewrite ?X1, ?X2, ?X3, ?Y1, ?Y2, ?Y3; clear - F; lra.
  - destruct (both0 n S D psi' psi M Hb Hk L4 2 (0) ext_L4 ltac:(lia) A B 4 ltac:(lia) ltac:(lia) ltac:(lia)) as (YT & XT). destruct (both0 n S D psi' psi M Hb Hk W1 1 (0) ext_W1 ltac:(lia) A B 2 ltac:(lia) ltac:(lia) ltac:(lia)) as (YW1 & XW1). destruct (both0 n S D psi' psi M Hb Hk W2 1 (0) ext_W2 ltac:(lia) A B 2 ltac:(lia) ltac:(lia) ltac:(lia)) as (YW2 & XW2). destruct (both0 n S D psi' psi M Hb Hk W3 1 (0) ext_W3 ltac:(lia) A B 2 ltac:(lia) ltac:(lia) ltac:(lia)) as (YW3 & XW3). destruct (both0 n S D psi' psi M Hb Hk N1 0 (0) ext_N1 ltac:(lia) A B 0 ltac:(lia) ltac:(lia) ltac:(lia)) as (YN1 & XN1). destruct (both0 n S D psi' psi M Hb Hk N2 0 (0) ext_N2 ltac:(lia) A B 0 ltac:(lia) ltac:(lia) ltac:(lia)) as (YN2 & XN2). rewrite c_t2 in XT, YT. rewrite c_w1 in XW1, YW1. rewrite c_w2 in XW2, YW2. rewrite c_w3 in XW3, YW3. rewrite c_n1 in XN1, YN1. rewrite c_n2 in XN2, YN2. match type of XN1 with ?a + ?b + ?d + ?e = _ => set (x0 := a) in *; set (x1 := b) in *; set (x2 := d) in *; set (x3 := e) in * end. match type of XN2 with _ + _ + ?b + ?d = _ => set (xT1 := b) in *; set (xT2 := d) in * end. match type of YN1 with ?a + ?b + ?d + ?e = _ => set (y0 := a) in *; set (y1 := b) in *; set (y2 := d) in *; set (y3 := e) in * end. match type of YN2 with _ + _ + ?b + ?d = _ => set (yT1 := b) in *; set (yT2 := d) in * end. rewrite !scale_dm_lo by lia. out. assert (GD : exists z, (- Z.abs D = Z.neg z)%Z /\ z <> 2%positive) by (destruct D as [|z|z]; [lia|exists z|exists z]; split; try reflexivity; lia). destruct GD as (z & -> & Nz). destruct k as [|[|[|[|]]]]; [| | | |lia]; cbn [so1 Nat.leb Nat.odd Nat.even negb]; fold x0 x1 x2 x3 y0 y1 y2 y3; fold xT1 xT2; (destruct z as [z|[z|z|]|]; try lia; apply tov; lra).
  - destruct (both0 n S D psi' psi M Hb Hk L4 2 (0) ext_L4 ltac:(lia) A B 4 ltac:(lia) ltac:(lia) ltac:(lia)) as (YT & XT). destruct (both0 n S D psi' psi M Hb Hk W1 1 (0) ext_W1 ltac:(lia) A B 2 ltac:(lia) ltac:(lia) ltac:(lia)) as (YW1 & XW1). destruct (both0 n S D psi' psi M Hb Hk W2 1 (0) ext_W2 ltac:(lia) A B 2 ltac:(lia) ltac:(lia) ltac:(lia)) as (YW2 & XW2). destruct (both0 n S D psi' psi M Hb Hk W3 1 (0) ext_W3 ltac:(lia) A B 2 ltac:(lia) ltac:(lia) ltac:(lia)) as (YW3 & XW3). destruct (both0 n S D psi' psi M Hb Hk N1 0 (0) ext_N1 ltac:(lia) A B 0 ltac:(lia) ltac:(lia) ltac:(lia)) as (YN1 & XN1). destruct (both0 n S D psi' psi M Hb Hk N2 0 (0) ext_N2 ltac:(lia) A B 0 ltac:(lia) ltac:(lia) ltac:(lia)) as (YN2 & XN2). rewrite c_t2 in XT, YT. rewrite c_w1 in XW1, YW1. rewrite c_w2 in XW2, YW2. rewrite c_w3 in XW3, YW3. rewrite c_n1 in XN1, YN1. rewrite c_n2 in XN2, YN2. match type of XN1 with ?a + ?b + ?d + ?e = _ => set (x0 := a) in *; set (x1 := b) in *; set (x2 := d) in *; set (x3 := e) in * end. match type of XN2 with _ + _ + ?b + ?d = _ => set (xT1 := b) in *; set (xT2 := d) in * end. match type of YN1 with ?a + ?b + ?d + ?e = _ => set (y0 := a) in *; set (y1 := b) in *; set (y2 := d) in *; set (y3 := e) in * end. match type of YN2 with _ + _ + ?b + ?d = _ => set (yT1 := b) in *; set (yT2 := d) in * end. rewrite !scale_dm_hi by lia. out. assert (GD : exists z, (- Z.abs D = Z.neg z)%Z /\ z <> 2%positive) by (destruct D as [|z|z]; [lia|exists z|exists z]; split; try reflexivity; lia). destruct GD as (z & -> & Nz). destruct k as [|[|[|[|]]]]; [| | | |lia]; cbn [so1 Nat.leb Nat.odd Nat.even negb]; fold x0 x1 x2 x3 y0 y1 y2 y3; fold xT1 xT2; (destruct z as [z|[z|z|]|]; try lia; apply tov; lra).
Qed.
End DM2.
