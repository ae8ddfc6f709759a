(** The values of the scale factors. *)
From Coq Require Import List Bool Arith ZArith Reals Lia Lra Psatz.
From Verif Require Import SmultModel.
Local Open Scope R_scope.

Lemma nmul_V a b : V a *! V b = V (a * b). Proof. reflexivity. Qed.
Lemma nadd_V a b : nadd (V a) (V b) = V (a + b). Proof. reflexivity. Qed.
Lemma ndiv_V a b : b <> 0 -> V a /! V b = V (a / b). Proof. intros H. unfold ndiv, V. destruct (Req_EM_T b 0); [contradiction|reflexivity]. Qed.
Lemma sq_V a : 0 <= a -> sq (V a) = V (sqrt a). Proof. intros H. unfold sq, V. destruct (Rlt_dec a 0); [lra|reflexivity]. Qed.
Lemma sqeq x y : 0 <= x -> 0 <= y -> x * x = y * y -> x = y. Proof. intros A B E. apply Rsqr_inj; assumption. Qed.
Lemma sqm x y X Y : x * x = X -> y * y = Y -> (x * y) * (x * y) = X * Y. Proof. intros <- <-. ring. Qed.
Lemma sqd x y X Y : y <> 0 -> x * x = X -> y * y = Y -> (x / y) * (x / y) = X / Y. Proof. intros N <- <-. field. exact N. Qed.
Lemma divpos a b : 0 <= a -> 0 < b -> 0 <= a / b. Proof. intros A B. apply Rmult_le_pos; [exact A|left; now apply Rinv_0_lt_compat]. Qed.
Lemma divspos a b : 0 < a -> 0 < b -> 0 < a / b. Proof. intros A B. apply Rmult_lt_0_compat; [exact A|now apply Rinv_0_lt_compat]. Qed.
Ltac spos := first [lra | apply sqrt_lt_R0; spos | apply Rmult_lt_0_compat; spos | apply divspos; spos | nra].
Ltac pos := first [lra | apply sqrt_pos | apply Rmult_le_pos; pos | apply divpos; [pos|spos] | left; spos | nra].
Ltac nz := apply Rgt_not_eq; spos.
Ltac ev := repeat first [rewrite nmul_V | rewrite nadd_V | rewrite sq_V by pos | rewrite ndiv_V by nz].
Ltac sqg := first [apply sqrt_sqrt; pos | apply sqd; [nz|sqg|sqg] | apply sqm; sqg | reflexivity].
Ltac scal := intros; cbv beta iota delta [t_scale_h t_scale_hh t_scale_sm t_scale_dm]; ev; apply (f_equal V); apply sqeq; [pos|apply sqrt_pos|]; etransitivity; [sqg|]; symmetry; etransitivity; [apply sqrt_sqrt; pos|]; first [ring | field; repeat split; nz].

Lemma h_m3_0 s m : 3 / 2 <= s -> 2 <= s + m -> 1 <= s - m -> t_scale_h 0 0 s m = V (sqrt ((s - m) * (s + m) * ((s + m) - 1) / (2 * (s - 1) * (2 * s - 1)))).
Proof. scal. Qed.
Lemma h_m3_1 s m : 3 / 2 <= s -> 1 <= s + m -> 2 <= s - m -> t_scale_h 0 1 s m = V (sqrt ((s - m) * (s + m) * ((s - m) - 1) / (4 * (s - 1)))).
Proof. scal. Qed.
Lemma h_m1_0 s m : 1 / 2 <= s -> 0 <= s + m -> t_scale_h 1 0 s m = V (sqrt ((s + m) / (2 * s))).
Proof. scal. Qed.
Lemma h_m1_1 s m : 0 <= s - m -> t_scale_h 1 1 s m = V (sqrt ((s - m))).
Proof. scal. Qed.
Lemma h_p1_0 s m : 0 <= s - m -> t_scale_h 2 0 s m = V (sqrt ((s - m) + 1)).
Proof. scal. Qed.
Lemma h_p1_1 s m : 0 <= s -> 0 <= s + m -> t_scale_h 2 1 s m = V (sqrt (((s + m) + 1) / (2 * s + 1))).
Proof. scal. Qed.
Lemma h_p3_0 s m : 0 <= s -> 0 <= s + m -> 0 <= s - m -> t_scale_h 3 0 s m = V (sqrt (((s - m) + 1) * ((s - m) + 2) * ((s + m) + 1) / (2 * (2 * s + 1)))).
Proof. scal. Qed.
Lemma h_p3_1 s m : 0 <= s -> 0 <= s + m -> 0 <= s - m -> t_scale_h 3 1 s m = V (sqrt (((s - m) + 1) * ((s + m) + 1) * ((s + m) + 2) / (2 * (2 * s + 1) * (s + 1)))).
Proof. scal. Qed.
Lemma hh_m2_0 s m : 1 <= s -> 2 <= s + m -> t_scale_hh 0 0 s m = V (sqrt ((s + m) * ((s + m) - 1) / (2 * s * (2 * s - 1)))).
Proof. scal. Qed.
Lemma hh_m2_1 s m : 1 <= s -> 1 <= s + m -> 1 <= s - m -> t_scale_hh 0 1 s m = V (sqrt ((s + m) * (s - m) / (2 * s - 1))).
Proof. scal. Qed.
Lemma hh_m2_2 s m : 1 <= s -> 2 <= s - m -> t_scale_hh 0 2 s m = V (sqrt ((s - m) * ((s - m) - 1) / 2)).
Proof. scal. Qed.
Lemma hh_0_0 s m : 1 / 2 <= s -> 0 <= s + m -> 0 <= s - m -> t_scale_hh 1 0 s m = V (sqrt ((s + m) * ((s - m) + 1) / (2 * s))).
Proof. scal. Qed.
Lemma hh_0_2 s m : 1 / 2 <= s -> 0 <= s + m -> 0 <= s - m -> t_scale_hh 1 2 s m = V (sqrt ((s - m) * ((s + m) + 1) / (2 * s))).
Proof. scal. Qed.
Lemma hh_p2_0 s m : 0 <= s - m -> t_scale_hh 2 0 s m = V (sqrt (((s - m) + 1) * ((s - m) + 2) / 2)).
Proof. scal. Qed.
Lemma hh_p2_1 s m : 0 <= s -> 0 <= s + m -> 0 <= s - m -> t_scale_hh 2 1 s m = V (sqrt (((s - m) + 1) * ((s + m) + 1) / (2 * s + 1))).
Proof. scal. Qed.
Lemma hh_p2_2 s m : 0 <= s -> 0 <= s + m -> t_scale_hh 2 2 s m = V (sqrt (((s + m) + 1) * ((s + m) + 2) / (2 * (2 * s + 1) * (s + 1)))).
Proof. scal. Qed.
Lemma sm_m2 s m : 1 <= s -> 2 <= s + m -> t_scale_sm 0 s m = V (sqrt ((s + m) * ((s + m) - 1) / (2 * s * (2 * s - 1)))).
Proof. scal. Qed.
Lemma sm_0 s m : 1 / 2 <= s -> 0 <= s + m -> 0 <= s - m -> t_scale_sm 1 s m = V (sqrt ((s + m) * ((s - m) + 1) / (2 * s))).
Proof. scal. Qed.
Lemma sm_p2 s m : 0 <= s - m -> t_scale_sm 2 s m = V (sqrt (((s - m) + 1) * ((s - m) + 2) / 2)).
Proof. scal. Qed.
Lemma dm_2 s m : 2 <= s -> 2 <= s + m -> 2 <= s - m -> t_scale_dm 0 s m = V (sqrt ((s + m) * (s - m) * ((s + m) - 1) * ((s - m) - 1) / (4 * (2 * s - 3) * (s - 1)))).
Proof. scal. Qed.
Lemma dm_1 s m : 1 <= s -> 0 <= s + m -> 0 <= s - m -> t_scale_dm 1 s m = V (sqrt ((s + m) * (s - m) / (2 * s - 1))).
Proof. scal. Qed.
