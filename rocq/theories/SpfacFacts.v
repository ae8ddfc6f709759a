(** Lowering of matrix elements by spin factors. *)
From Coq Require Import List Bool Arith NArith ZArith Reals Lia Lra.
From Verif Require Import Base BaseFacts Star FockSpec FockFacts FockOps LsisUpdModel SmultSpec SmultAlg SmultClosed SmultComm SmultModel SmultMain1 SmultMain2 PropSmult SpfacModel.
Import ListNotations.
Local Open Scope R_scope.

(** ** products with a factor that may not be defined *)
Lemma V_inv x y z : V x *! y = Some z -> exists a, y = V a /\ z = a * x.
Proof. destruct y as [a|]; cbn; [|discriminate]. intros [= <-]. exists a. split; [reflexivity|ring]. Qed.

(** ** elements of scalar operators *)
Lemma scalar_const S' S t M1 M2 : (forall M' M, member S' M' -> member S M -> up S' M' * t (M' + 2)%Z M = down S M * t M' (M - 2)%Z) ->
  member S' M1 -> member S M1 -> member S' M2 -> member S M2 -> t M1 M1 = t M2 M2 /\ (S' <> S -> t M1 M1 = 0).
Proof.
  intros C A1 A2 B1 B2. destruct (Z.eq_dec S' S) as [->|N].
  - split; [|congruence]. destruct (ladder 0 0 S t) as [c Hc].
    + replace (S + Z.of_nat 0 - Z.of_nat 0)%Z with S by lia. exact C.
    + cbv beta in Hc. replace (S + Z.of_nat 0 - Z.of_nat 0)%Z with S in Hc by lia. pose proof (Hc M1 A2) as E1. pose proof (Hc M2 B2) as E2. replace (M1 - (Z.of_nat 0 + Z.of_nat 0))%Z with M1 in E1 by lia. replace (M2 - (Z.of_nat 0 + Z.of_nat 0))%Z with M2 in E2 by lia.
      rewrite (E1 A1), (E2 B1). reflexivity.
  - pose proof (select S' S 0 t ltac:(lia) ltac:(lia) C) as Z. pose proof (Z M1 A2) as E1. pose proof (Z M2 B2) as E2. rewrite Z.sub_0_r in E1, E2. rewrite (E1 A1), (E2 B1). split; [reflexivity|intros _; reflexivity].
Qed.

(** ** the factor does not depend on which of the two states is the bra *)
Definition swap (x : info) : info := mkInfo (i_ket x) (i_bra x) (i_sket x) (i_sbra x).
Lemma scale_dm_sym a b m : scale_dm a b m = scale_dm b a m.
Proof.
  unfold scale_dm. destruct (Z.ltb_spec b a), (Z.ltb_spec a b); try lia; try reflexivity. assert (a = b) by lia. subst. reflexivity.
Qed.
Lemma constant_swap x : spin_factor_constant (swap x) = spin_factor_constant x.
Proof.
  destruct x as [[a b] [c d] sb sk]. unfold spin_factor_constant, swap, spin_of. cbn [i_bra i_ket i_sbra i_sket fst snd].
  set (A := Z.of_nat a). set (B := Z.of_nat b). set (C := Z.of_nat c). set (D := Z.of_nat d).
  destruct (Z.ltb_spec 0 (C - A)), (Z.ltb_spec 0 (A - C)), (Z.eqb_spec (C - A) 0), (Z.eqb_spec (A - C) 0), (Z.ltb_spec 0 (D - B)), (Z.ltb_spec 0 (B - D)); cbn [orb andb]; try lia;
    try (replace (- (C - A))%Z with (A - C)%Z by lia; replace (- (D - B))%Z with (B - D)%Z by lia; reflexivity);
    try (replace (- (A - C))%Z with (C - A)%Z by lia; replace (- (B - D))%Z with (D - B)%Z by lia; reflexivity).
  assert (E1 : A = C) by lia. assert (E2 : B = D) by lia. rewrite E1, E2, !Z.sub_diag. cbn [scale_dnelec]. f_equal. apply scale_dm_sym.
Qed.
