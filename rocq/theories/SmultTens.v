(** The closed forms for the components of the tensor operators that are sums of strings. *)
From Coq Require Import List NArith Arith Bool ZArith Reals Lia Lra.
From Verif Require Import Star FockSpec LsisUpdModel SmultSpec SmultAlg SmultClosed SmultComm.
Import ListNotations.
Local Open Scope R_scope.

Definition sc (c : R) (L : list (R * list fop)) : list (R * list fop) := map (fun x => (c * fst x, snd x)) L.
Fixpoint derL (d : fop -> list (R * fop)) (L : list (R * list fop)) : list (R * list fop) :=
  match L with [] => [] | (c, l) :: r => sc c (der d l) ++ derL d r end.
Section Tens.
Variables (n : nat) (S' S : Z) (psi' psi : Z -> vec Rs).
Hypothesis Hb : multiplet n S' psi'.
Hypothesis Hk : multiplet n S psi.
Notation comb := (comb n psi' psi).
Definition okL (L : list (R * list fop)) : Prop := Forall (fun cl => Forall (okf n) (snd cl)) L.
Lemma comb_app L L' M' M : comb (L ++ L') M' M = comb L M' M + comb L' M' M.
Proof. unfold SmultComm.comb. induction L as [|x L IH]; cbn [app fold_right]; [lra|]. rewrite IH. lra. Qed.
Lemma comb_sc c L M' M : comb (sc c L) M' M = c * comb L M' M.
Proof. unfold SmultComm.comb, sc. induction L as [|x L IH]; cbn [map fold_right fst snd]; [lra|]. rewrite IH. lra. Qed.
Lemma comm_PL L : okL L -> commP S' S (comb L) (comb (derL dP1 L)).
Proof.
  intros H M' M A B. induction H as [|[c l] L Hl _ IH]; [cbn; lra|]. cbn [derL]. rewrite comb_app, comb_sc, IH, (comm_P n S' S psi' psi Hb Hk l Hl M' M A B). cbn [SmultComm.comb fold_right fst snd]. fold (SmultComm.comb n psi' psi L (M' - 2)%Z M). fold (SmultComm.comb n psi' psi L M' (M + 2)%Z). lra.
Qed.
Lemma comm_ML L : okL L -> commM S' S (comb L) (comb (derL dM1 L)).
Proof.
  intros H M' M A B. induction H as [|[c l] L Hl _ IH]; [cbn; lra|]. cbn [derL]. rewrite comb_app, comb_sc, IH, (comm_M n S' S psi' psi Hb Hk l Hl M' M A B). cbn [SmultComm.comb fold_right fst snd]. fold (SmultComm.comb n psi' psi L (M' + 2)%Z M). fold (SmultComm.comb n psi' psi L M' (M - 2)%Z). lra.
Qed.
Lemma der_ok d l : (forall x, okf n x -> Forall (fun cy => okf n (snd cy)) (d x)) -> Forall (okf n) l -> okL (der d l).
Proof.
  intros Hd H. induction H as [|x l Hx Hl IH]; [constructor|]. cbn [der]. apply Forall_app. split.
  - specialize (Hd x Hx). induction Hd; cbn [map]; constructor; [cbn [snd]; constructor; assumption|assumption].
  - clear - Hx IH. induction IH; cbn [map]; constructor; [cbn [snd]; constructor; assumption|assumption].
Qed.
Lemma dP1_ok x : okf n x -> Forall (fun cy => okf n (snd cy)) (dP1 x).
Proof. intros H. destruct x as [[[] []] p]; cbn [dP1]; repeat constructor; exact H. Qed.
Lemma derP_ok L : okL L -> okL (derL dP1 L).
Proof.
  intros H. induction H as [|[c l] L Hl _ IH]; [constructor|]. cbn [derL]. apply Forall_app. split; [|exact IH]. pose proof (der_ok dP1 l dP1_ok Hl) as D. unfold sc. unfold okL in D. clear - D. induction D; cbn [map]; constructor; assumption.
Qed.
Definition extremal (L : list (R * list fop)) : Prop := okL L /\ forall M' M, comb (derL dM1 L) M' M = 0.
Lemma tens L a b : extremal L -> (a + b <= 4)%nat -> S' = brS a b S -> let Q := (- (Z.of_nat a + Z.of_nat b))%Z in
  exists c, closed S' S Q (comb L) c (F0 a b) /\ ((1 <= a + b)%nat -> closed S' S (Q + 2) (comb (derL dP1 L)) c (F1 a b)) /\
    ((2 <= a + b)%nat -> closed S' S (Q + 4) (comb (derL dP1 (derL dP1 L))) c (F2 a b)).
Proof.
  intros [HL HM] Hab ES Q. assert (C0 : commM S' S (comb L) (fun _ _ => 0)). { intros M' M A B. rewrite <- (HM M' M). now apply comm_ML. }
  pose proof (comm_PL L HL) as C1. pose proof (comm_PL _ (derP_ok L HL)) as C2. rewrite ES in C0, C1, C2. rewrite ES. destruct (closed0 a b S _ C0) as [c H0]. exists c. split; [exact H0|].
  assert (H1 : (1 <= a + b)%nat -> closed (brS a b S) S (Q + 2) (comb (derL dP1 L)) c (F1 a b)).
  { intros G. apply (closed1 a b S _ _ C1 c _ _ H0).
    destruct a as [|[|[|[|[|a]]]]], b as [|[|[|[|[|b]]]]]; try lia; first [exact F1_01|exact F1_02|exact F1_03|exact F1_04|exact F1_10|exact F1_11|exact F1_12|exact F1_13|exact F1_20|exact F1_21|exact F1_22|exact F1_30|exact F1_31|exact F1_40]. }
  split; [exact H1|]. intros G. apply (closed2 a b S _ _ C2 c _ _ (H1 ltac:(lia))).
  destruct a as [|[|[|[|[|a]]]]], b as [|[|[|[|[|b]]]]]; try lia; first [exact F2_02|exact F2_03|exact F2_04|exact F2_11|exact F2_12|exact F2_13|exact F2_20|exact F2_21|exact F2_22|exact F2_30|exact F2_31|exact F2_40].
Qed.
Lemma tens0 L K : extremal L -> (0 <= K)%Z -> (S' < S - K \/ S + K < S')%Z -> closed S' S (- K) (comb L) 0 (fun _ _ => 0) /\ closed S' S (- K + 2) (comb (derL dP1 L)) 0 (fun _ _ => 0) /\ closed S' S (- K + 4) (comb (derL dP1 (derL dP1 L))) 0 (fun _ _ => 0).
Proof.
  intros [HL HM] HK Out. pose proof (comm_ML L HL) as C0. pose proof (comm_PL L HL) as C1. pose proof (comm_PL _ (derP_ok L HL)) as C2.
  assert (H0 : closed S' S (- K) (comb L) 0 (fun _ _ => 0)).
  { intros M A B. rewrite Rmult_0_l. replace (M + - K)%Z with (M - K)%Z in * by lia. apply (select S' S K (comb L) HK Out); [|exact A|exact B]. intros N' N A' B'. pose proof (C0 N' N A' B') as X. rewrite HM in X. lra. }
  assert (Par : forall Q t, (exists j, S' - S - Q = 2 * j)%Z \/ closed S' S Q t 0 (fun _ _ => 0)).
  { intros Q t. destruct (Zeven_odd_dec (S' - S - Q)) as [e|o]; [left; destruct (Zeven_ex _ e) as [j Ej]; exists j; exact Ej|]. right. intros M [_ [j Ej]] [_ [j' Ej']]. exfalso. destruct (Zodd_ex _ o) as [i Ei]. lia. }
  assert (Step : forall Q t u, commP S' S t u -> closed S' S Q t 0 (fun _ _ => 0) -> closed S' S (Q + 2) u 0 (fun _ _ => 0)).
  { intros Q t u Cu Ht. destruct (Par Q t) as [P|_]; [|destruct (Par (Q + 2)%Z u) as [[j Ej]|P]; [|exact P]].
    - intros M A B. rewrite (chain S' S Q t u 0 (fun _ _ => 0) Cu Ht P M A B). lra.
    - assert (P : exists j, (S' - S - Q = 2 * j)%Z) by (exists (j + 1)%Z; lia). intros M A B. rewrite (chain S' S Q t u 0 (fun _ _ => 0) Cu Ht P M A B). lra. }
  split; [exact H0|]. pose proof (Step _ _ _ C1 H0) as H1. split; [exact H1|]. replace (- K + 4)%Z with (- K + 2 + 2)%Z by lia. exact (Step _ _ _ C2 H1).
Qed.
End Tens.
(** the projection at which the density matrices are made *)
Lemma high S' S Q M : member S M -> member S' (M + Q) -> let M0 := Z.min S (S' - Q) in member S M0 /\ member S' (M0 + Q).
Proof.
  intros [A [i Ei]] [B [j Ej]] M0. unfold M0, member. destruct (Z.min_spec S (S' - Q)) as [[? ->]|[? ->]]; (split; split; [lia| |lia|]).
  - exists 0%Z. lia.
  - exists (j - i)%Z. lia.
  - exists (i - j)%Z. lia.
  - exists 0%Z. lia.
Qed.
