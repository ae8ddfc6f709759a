(** C73: the density matrices of every pair of members of two spin multiplets are obtained from those of one pair. *)
From Coq Require Import List NArith Arith Bool ZArith Reals Lia Lra.
From Verif Require Import Star FockSpec FockFacts LsisUpdModel SmultSpec SmultComm SmultModel SmultMain1 SmultMain2 SmultMain3.
Import ListNotations.
Local Open Scope R_scope.

(** spin 0 is up and spin 1 is down *)
Definition dn (k : nat) : bool := negb (k =? 0)%nat.
(** what operators that annihilate and create electrons of these spins add to 2m *)
Definition two_m (annihilated created : list bool) : Z :=
  (fold_right (fun (b : bool) (r : Z) => (if b then 1 else -1) + r) 0 annihilated + fold_right (fun (b : bool) (r : Z) => (if b then -1 else 1) + r) 0 created)%Z.
(** the elements of the pair of members at which the code makes its density matrices *)
Definition at_high (S' S Q : Z) (f : Z -> Z -> R) : R := f (high_bra (S' + 1) (S + 1) Q) (high_ket (S' + 1) (S + 1) Q).

Section Elements.
Variables (n : nat) (psi' psi : Z -> vec Rs).
Notation el := (el n psi' psi).
Definition el_h (op p : nat) : Z -> Z -> R := el (fun v => A n (dn op) p v).
(** the pair of operators aa, ba, bb of [op] 0, 1, 2 *)
Definition el_hh (op p q : nat) : Z -> Z -> R := el (fun v => A n (1 <=? op)%nat p (A n (2 <=? op)%nat q v)).
Definition el_phh (op k r p q : nat) : Z -> Z -> R := el (fun v => C n (dn k) p (A n (dn k) q (A n (dn op) r v))).
Definition el_sm (p q : nat) : Z -> Z -> R := el (fun v => C n true p (A n false q v)).
Definition el_dm1 (k p q : nat) : Z -> Z -> R := el (fun v => C n (dn k) p (A n (dn k) q v)).
(** blocks aa, ab, ba, bb *)
Definition el_dm2 (k p q r s : nat) : Z -> Z -> R := el (fun v => C n (dn (k / 2)) p (C n (dn (k mod 2)) r (A n (dn (k mod 2)) s (A n (dn (k / 2)) q v)))).
End Elements.

Section Claims.
Variables (n : nat) (S' S : Z) (psi' psi : Z -> vec Rs) (M : Z).
Lemma high_D Q : high_ket (S' + 1) (S + 1) Q = Z.min S (S + (S' - S) - Q).
Proof. unfold high_ket. f_equal; lia. Qed.
End Claims.

Theorem C73_h n S' S psi' psi M op p : multiplet n S' psi' -> multiplet n S psi -> (op < 2)%nat -> (p < n)%nat -> let Q := two_m [dn op] [] in member S M -> member S' (M + Q) ->
  mdown_h (fun p => at_high S' S Q (el_h n psi' psi op p)) (S' + 1) op (S + 1) M p = Some (el_h n psi' psi op p (M + Q)%Z M).
Proof.
  intros Hb Hk Hop Hp Q A0 B. subst Q. assert (G : S' = (S + (S' - S))%Z) by lia. unfold mdown_h, at_high, high_bra. rewrite !high_D. set (D := (S' - S)%Z) in *. rewrite G in Hb, B |- *. destruct op as [|[|]]; [| |lia].
  - exact (main_h0 n S D psi' psi M Hb Hk p Hp A0 B).
  - exact (main_h1 n S D psi' psi M Hb Hk p Hp A0 B).
Qed.
Theorem C73_hh n S' S psi' psi M op p q : multiplet n S' psi' -> multiplet n S psi -> (op < 3)%nat -> (p < n)%nat -> (q < n)%nat -> let Q := two_m [(1 <=? op)%nat; (2 <=? op)%nat] [] in member S M -> member S' (M + Q) ->
  mdown_hh (fun p q => at_high S' S Q (el_hh n psi' psi op p q)) (S' + 1) op (S + 1) M p q = Some (el_hh n psi' psi op p q (M + Q)%Z M).
Proof.
  intros Hb Hk Hop Hp Hq Q A0 B. subst Q. assert (G : S' = (S + (S' - S))%Z) by lia. unfold at_high, high_bra. rewrite !high_D. set (D := (S' - S)%Z) in *. rewrite G in Hb, B |- *. destruct op as [|[|[|]]]; [| | |lia].
  - etransitivity; [|exact (main_hh0 n S D psi' psi M Hb Hk p q Hp Hq A0 B)]. unfold mdown_hh. destruct (S + D + 1 - (S + 1))%Z; reflexivity.
  - exact (main_hh1 n S D psi' psi M Hb Hk p q Hp Hq A0 B).
  - etransitivity; [|exact (main_hh2 n S D psi' psi M Hb Hk p q Hp Hq A0 B)]. unfold mdown_hh. destruct (S + D + 1 - (S + 1))%Z; reflexivity.
Qed.
Theorem C73_phh n S' S psi' psi M op k r p q : multiplet n S' psi' -> multiplet n S psi -> (op < 2)%nat -> (k < 2)%nat -> (r < n)%nat -> (p < n)%nat -> (q < n)%nat ->
  let Q := two_m [dn k; dn op] [dn k] in member S M -> member S' (M + Q) ->
  mdown_phh (fun k r p q => at_high S' S Q (el_phh n psi' psi op k r p q)) (S' + 1) op (S + 1) M k r p q = Some (el_phh n psi' psi op k r p q (M + Q)%Z M).
Proof.
  intros Hb Hk Hop Hkk Hr Hp Hq Q A0 B. assert (EQ : Q = if (op =? 0)%nat then (-1)%Z else 1%Z) by (destruct op as [|[|]]; [| |lia]; destruct k as [|[|]]; [| |lia| | |lia]; reflexivity). rewrite EQ in *. clear Q EQ. assert (G : S' = (S + (S' - S))%Z) by lia. unfold at_high, high_bra. rewrite !high_D. set (D := (S' - S)%Z) in *. rewrite G in Hb, B |- *. destruct op as [|[|]]; [| |lia].
  - exact (main_phh0 n S D psi' psi M Hb Hk p q r Hp Hq Hr k Hkk A0 B).
  - exact (main_phh1 n S D psi' psi M Hb Hk p q r Hp Hq Hr k Hkk A0 B).
Qed.
Theorem C73_sm n S' S psi' psi M p q : multiplet n S' psi' -> multiplet n S psi -> (p < n)%nat -> (q < n)%nat -> let Q := two_m [false] [true] in member S M -> member S' (M + Q) ->
  mdown_sm (fun p q => at_high S' S Q (el_sm n psi' psi p q)) (S' + 1) (S + 1) M p q = Some (el_sm n psi' psi p q (M + Q)%Z M).
Proof.
  intros Hb Hk Hp Hq Q A0 B. subst Q. assert (G : S' = (S + (S' - S))%Z) by lia. unfold mdown_sm, at_high, high_bra. rewrite !high_D. set (D := (S' - S)%Z) in *. rewrite G in Hb, B |- *. exact (main_sm n S D psi' psi M Hb Hk p q Hp Hq A0 B).
Qed.
Theorem C73_dm1 n S' S psi' psi M k p q : multiplet n S' psi' -> multiplet n S psi -> (k < 2)%nat -> (p < n)%nat -> (q < n)%nat -> member S M -> member S' M ->
  mdown_dm1 (fun k p q => at_high S' S 0 (el_dm1 n psi' psi k p q)) (S' + 1) (S + 1) M k p q = Some (el_dm1 n psi' psi k p q M M).
Proof.
  intros Hb Hk Hkk Hp Hq A0 B. rewrite <- (Z.add_0_r M) in B. assert (G : S' = (S + (S' - S))%Z) by lia. unfold at_high, high_bra. rewrite !high_D. set (D := (S' - S)%Z) in *. rewrite G in Hb, B |- *. pose proof (main_dm1 n S D psi' psi M Hb Hk p q Hp Hq k Hkk A0 B) as X. rewrite (Z.add_0_r M) in X. exact X.
Qed.
Theorem C73_dm2 n S' S psi' psi M k p q r s : multiplet n S' psi' -> multiplet n S psi -> (k < 4)%nat -> (p < n)%nat -> (q < n)%nat -> (r < n)%nat -> (s < n)%nat -> member S M -> member S' M ->
  mdown_dm2 (fun k p q r s => at_high S' S 0 (el_dm2 n psi' psi k p q r s)) (S' + 1) (S + 1) M k p q r s = Some (el_dm2 n psi' psi k p q r s M M).
Proof.
  intros Hb Hk Hkk Hp Hq Hr Hs A0 B. rewrite <- (Z.add_0_r M) in B. assert (G : S' = (S + (S' - S))%Z) by lia. unfold at_high, high_bra. rewrite !high_D. set (D := (S' - S)%Z) in *. rewrite G in Hb, B |- *. pose proof (main_dm2 n S D psi' psi M Hb Hk p q r s Hp Hq Hr Hs k Hkk A0 B) as X. rewrite (Z.add_0_r M) in X.
  destruct k as [|[|[|[|]]]]; [| | | |lia]; exact X.
Qed.

(** ** two electrons in two orbitals as a triplet, one electron as a doublet *)
Definition det (k : N) : vec Rs := fun d => if (d =? k)%N then 1 else 0.
Definition triplet (M : Z) : vec Rs := fun d => match M with 2%Z => det 3 d | 0%Z => (det 9 d - det 6 d) / sqrt 2 | (-2)%Z => det 12 d | _ => 0 end.
Definition doublet (M : Z) : vec Rs := fun d => match M with 1%Z => det 1 d | (-1)%Z => det 4 d | _ => 0 end.
Lemma r2 : sqrt 2 * sqrt 2 = 2. Proof. apply sqrt_sqrt. lra. Qed.
Lemma r2n : sqrt 2 <> 0. Proof. apply Rgt_not_eq, sqrt_lt_R0. lra. Qed.
Ltac each H d := apply in_dets in H; cbn [dets map seq N.of_nat Nat.pow Nat.mul Nat.add] in H; repeat destruct H as [<-|H]; [..|destruct H].
Ltac calc := cbv -[Rplus Rmult Ropp Rdiv Rinv Rminus IZR sqrt hf down up].
Ltac fin2 := calc; first [ring | field; exact r2n | field_simplify_eq; [|exact r2n]; replace (sqrt 2 ^ 2) with 2 by (symmetry; exact (eq_trans (f_equal (Rmult _) (Rmult_1_r _)) r2)); ring].
Lemma triplet_ok : multiplet 2 2 triplet.
Proof.
  intros M H. assert (G : (M = 2 \/ M = 0 \/ M = -2)%Z) by (destruct H as [A [j Ej]]; lia). clear H.
  destruct G as [->|[->| ->]]; unfold down, up, hf.
  - replace ((2 / 2 + 2 / 2) * (2 / 2 - 2 / 2 + 1)) with 2 by field. replace ((2 / 2 - 2 / 2) * (2 / 2 + 2 / 2 + 1)) with 0 by field. rewrite sqrt_0. split; intros d H; each H d; fin2.
  - replace ((2 / 2 + 0 / 2) * (2 / 2 - 0 / 2 + 1)) with 2 by field. replace ((2 / 2 - 0 / 2) * (2 / 2 + 0 / 2 + 1)) with 2 by field. split; intros d H; each H d; fin2.
  - replace ((2 / 2 + -2 / 2) * (2 / 2 - -2 / 2 + 1)) with 0 by field. replace ((2 / 2 - -2 / 2) * (2 / 2 + -2 / 2 + 1)) with 2 by field. rewrite sqrt_0. split; intros d H; each H d; fin2.
Qed.
Lemma doublet_ok : multiplet 2 1 doublet.
Proof.
  intros M H. assert (G : (M = 1 \/ M = -1)%Z) by (destruct H as [A [j Ej]]; lia). clear H.
  destruct G as [->| ->]; unfold down, up, hf.
  - replace ((1 / 2 + 1 / 2) * (1 / 2 - 1 / 2 + 1)) with 1 by field. replace ((1 / 2 - 1 / 2) * (1 / 2 + 1 / 2 + 1)) with 0 by field. rewrite sqrt_0, sqrt_1. split; intros d H; each H d; fin2.
  - replace ((1 / 2 + -1 / 2) * (1 / 2 - -1 / 2 + 1)) with 0 by field. replace ((1 / 2 - -1 / 2) * (1 / 2 + -1 / 2 + 1)) with 1 by field. rewrite sqrt_0, sqrt_1. split; intros d H; each H d; fin2.
Qed.
Lemma mem_2 M : (M = 2 \/ M = 0 \/ M = -2)%Z -> member 2 M.
Proof. intros [->|[->| ->]]; (split; [lia|]); [exists 0%Z|exists 1%Z|exists 2%Z]; lia. Qed.
Lemma mem_1 M : (M = 1 \/ M = -1)%Z -> member 1 M.
Proof. intros [->| ->]; (split; [lia|]); [exists 0%Z|exists 1%Z]; lia. Qed.
(** From m = 1 to m = 0 of the triplet the densities of both spins become 1/2, and finding spin up in the first and spin down in the second orbital becomes possible. *)
Example C73_example : multiplet 2 2 triplet /\ multiplet 2 1 doublet /\
  (at_high 2 2 0 (el_dm1 2 triplet triplet 0 0 0) = 1 /\ at_high 2 2 0 (el_dm1 2 triplet triplet 1 0 0) = 0 /\ at_high 2 2 0 (el_dm2 2 triplet triplet 1 0 0 1 1) = 0) /\
  mdown_dm1 (fun k p q => at_high 2 2 0 (el_dm1 2 triplet triplet k p q)) 3 3 0 1 0 0 = Some (1 / 2) /\
  mdown_dm2 (fun k p q r s => at_high 2 2 0 (el_dm2 2 triplet triplet k p q r s)) 3 3 0 1 0 0 1 1 = Some (1 / 2) /\
  at_high 1 2 1 (el_h 2 doublet triplet 1 1) = / sqrt 2 /\
  mdown_h (fun p => at_high 1 2 1 (el_h 2 doublet triplet 1 p)) 2 1 3 (-2) 1 = Some 1.
Proof.
  split; [exact triplet_ok|]. split; [exact doublet_ok|]. split; [|split; [|split; [|split]]].
  - repeat split; unfold at_high, high_bra, high_ket; fin2.
  - etransitivity; [exact (C73_dm1 2 2 2 triplet triplet 0 1 0 0 triplet_ok triplet_ok ltac:(lia) ltac:(lia) ltac:(lia) (mem_2 0 ltac:(lia)) (mem_2 0 ltac:(lia)))|]. apply (f_equal Some). fin2.
  - etransitivity; [exact (C73_dm2 2 2 2 triplet triplet 0 1 0 0 1 1 triplet_ok triplet_ok ltac:(lia) ltac:(lia) ltac:(lia) ltac:(lia) ltac:(lia) (mem_2 0 ltac:(lia)) (mem_2 0 ltac:(lia)))|]. apply (f_equal Some). fin2.
  - unfold at_high, high_bra, high_ket. fin2.
  - etransitivity; [exact (C73_h 2 1 2 doublet triplet (-2) 1 1 doublet_ok triplet_ok ltac:(lia) ltac:(lia) (mem_2 (-2) ltac:(lia)) (mem_1 (-1) ltac:(lia)))|]. apply (f_equal Some). fin2.
Qed.
Print Assumptions C73_h.
Print Assumptions C73_hh.
Print Assumptions C73_phh.
Print Assumptions C73_sm.
Print Assumptions C73_dm1.
Print Assumptions C73_dm2.
