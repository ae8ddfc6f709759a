(** C76: terms of the squared spin made at high m and lowered are those of the members of the multiplets. *)
From Coq Require Import List Bool Arith NArith ZArith Reals Lia Lra.
From Verif Require Import Base BaseFacts Star FockSpec FockFacts FockOps CrunchModel HamModel LsisUpdModel SmultSpec SmultComm SmultModel PropSmult SpfacModel SpfacRestModel SpfacS2Model SpfacFacts PropSpfac PropSpfacTerm PropSpfacRest PropSpfacHam.
Import ListNotations.
Local Open Scope R_scope.

(** ** one fragment: the squared spin is made of densities summed over spin *)
Lemma same_spin n psi' psi c p q M' M : c = 0%nat \/ c = 3%nat -> (p < n)%nat -> (q < n)%nat -> el_dm2 n psi' psi c p q q p M' M = - el_dm2 n psi' psi c p p q q M' M.
Proof.
  intros Hc Hp Hq.
  change (el_dm2 n psi' psi c p q q p M' M) with (E n psi' psi ([(true, dn (c / 2), p); (true, dn (c mod 2), q)] ++ (false, dn (c mod 2), p) :: (false, dn (c / 2), q) :: []) M' M).
  change (el_dm2 n psi' psi c p p q q M' M) with (E n psi' psi ([(true, dn (c / 2), p); (true, dn (c mod 2), q)] ++ (false, dn (c mod 2), q) :: (false, dn (c / 2), p) :: []) M' M).
  rewrite E_swap by assumption. destruct Hc as [-> | ->]; reflexivity.
Qed.
Definition summed (n : nat) (d1 : nat -> nat -> R) (D : nat -> nat -> nat -> nat -> R) : R :=
  3 / 4 * sm n (fun p => d1 p p) - 1 / 4 * sm n (fun p => sm n (fun r => D p p r r)) - 1 / 2 * sm n (fun p => sm n (fun q => D p q q p)).
Lemma s2_summed n d1 d2 : (forall c p q, c = 0%nat \/ c = 3%nat -> (p < n)%nat -> (q < n)%nat -> d2 c p q q p = - d2 c p p q q) ->
  reduce_spin_none (s2_1d n d1 d2) = summed n (fun p q => d1 0%nat p q + d1 1%nat p q) (fun p q r s => d2 0%nat p q r s + d2 1%nat p q r s + d2 2%nat p q r s + d2 3%nat p q r s).
Proof.
  intros H. unfold reduce_spin_none, s2_1d, summed. cbn [map fst fold_right sm seq].
  assert (P2 : forall f g : nat -> nat -> R, sm n (fun p => sm n (fun r => f p r + g p r)) = sm n (fun p => sm n (f p)) + sm n (fun p => sm n (g p))).
  { intros f g. rewrite <- sm_plus. apply sm_ext. intros p _. apply sm_plus. }
  rewrite sm_plus, !(P2 _ (fun p r => d2 3%nat p p r r)), !(P2 _ (fun p r => d2 2%nat p p r r)), !(P2 _ (fun p r => d2 1%nat p p r r)), !(P2 _ (fun p r => d2 3%nat p r r p)), !(P2 _ (fun p r => d2 2%nat p r r p)), !(P2 _ (fun p r => d2 1%nat p r r p)).
  assert (N : forall c, c = 0%nat \/ c = 3%nat -> sm n (fun p => sm n (fun q => d2 c p q q p)) = - sm n (fun p => sm n (fun q => d2 c p p q q))).
  { intros c Hc. transitivity (-1 * sm n (fun p => sm n (fun q => d2 c p p q q))); [|ring]. rewrite sm_mul. apply sm_ext. intros p Hp. rewrite sm_mul. apply sm_ext. intros q Hq. rewrite (H c p q Hc Hp Hq). ring. }
  rewrite (N 0%nat), (N 3%nat) by auto. field.
Qed.
Theorem C76_s2_1d n x psi' psi : (0 < n)%nat -> proper n x psi' psi -> changes x 0 0 ->
  let term (t : info -> (Z -> Z -> R) -> R) := s2_1d n (fun k p q => t x (el_dm1 n psi' psi k p q)) (fun k p q r s => t x (el_dm2 n psi' psi k p q r s)) in
  reduce_spin [x] (term (fun x => high x 0)) = Ok (V (reduce_spin_none (term here))).
Proof.
  intros Hn HP Hc term. unfold term. clear term. destruct (C76_dm1 n x psi' psi 0 0 0 HP ltac:(lia) Hn Hn Hc) as (a & Ha & _). cbv zeta in Ha.
  rewrite s2_summed by (intros; unfold here; apply same_spin; assumption).
  match goal with |- reduce_spin _ ?T = _ => assert (HT : T = [(reduce_spin_none T, [])]) by (unfold reduce_spin_none, s2_1d; cbn [map fst fold_right]; rewrite Rplus_0_r; reflexivity); rewrite HT; clear HT end.
  rewrite (reduce1 x a _ Ha). rewrite s2_summed by (intros; unfold high, at_high; apply same_spin; assumption). f_equal. unfold V. f_equal. unfold summed.
  rewrite !Rmult_minus_distr_l.
  assert (G : forall c f g, f = a * g -> a * (c * g) = c * f) by (intros c f g ->; ring).
  f_equal; [f_equal|]; apply G; rewrite sm_mul; apply sm_ext; intros p Hp.
  - pose proof (lowered_at _ _ _ _ _ (C76_dm1 n x psi' psi 0 p p HP ltac:(lia) Hp Hp Hc) Ha) as K. rewrite comp0 in K. unfold here, high, at_high in *. cbn [pm Nat.eqb] in K. rewrite !Rmult_1_l, Rmult_1_r in K. exact K.
  - rewrite sm_mul. apply sm_ext. intros q Hq. pose proof (lowered_at _ _ _ _ _ (C76_dm2 n x psi' psi p p q q HP Hp Hp Hq Hq Hc) Ha) as K. rewrite comp0 in K. unfold here, high, all_dm2, at_high in *. rewrite Rmult_1_r in K. exact K.
  - rewrite sm_mul. apply sm_ext. intros q Hq. pose proof (lowered_at _ _ _ _ _ (C76_dm2 n x psi' psi p q q p HP Hp Hq Hq Hp Hc) Ha) as K. rewrite comp0 in K. unfold here, high, all_dm2, at_high in *. rewrite Rmult_1_r in K. exact K.
Qed.

(** ** two fragments *)
Theorem C76_s2_2d ni nj xi xj psi_i' psi_i psi_j' psi_j : (0 < ni)%nat -> (0 < nj)%nat -> proper ni xi psi_i' psi_i -> proper nj xj psi_j' psi_j -> changes xi 0 0 -> changes xj 0 0 ->
  let term (t : info -> (Z -> Z -> R) -> R) := s2_2d ni nj (fun k p q => t xi (el_dm1 ni psi_i' psi_i k p q)) (fun k p q => t xj (el_dm1 nj psi_j' psi_j k p q)) in
  reduce_spin [xi; xj] (term (fun x => high x 0)) = Ok (V (reduce_spin_none (term here))).
Proof.
  intros Hi Hj Pi Pj Ci Cj term. unfold term. clear term. destruct (C76_dm1 ni xi _ _ 0 0 0 Pi ltac:(lia) Hi Hi Ci) as (a & Ha & _). destruct (C76_dm1 nj xj _ _ 0 0 0 Pj ltac:(lia) Hj Hj Cj) as (b & Hb & _).
  unfold s2_2d. cbv zeta in *. rewrite (reduce22 xi xj a b _ _ Ha Hb). f_equal. unfold V. f_equal. unfold reduce_spin_none. cbn [map fst fold_right].
  assert (G : forall n x psi' psi c, proper n x psi' psi -> changes x 0 0 -> spin_factor_constant x = Ok (V c) ->
    sm n (fun p => cs (fun k p q => here x (el_dm1 n psi' psi k p q)) 1 p p) = c * spin_factor_component x 1 * sm n (fun p => cs (fun k p q => high x 0 (el_dm1 n psi' psi k p q)) 1 p p)).
  { intros n x psi' psi c HP Hc H. rewrite sm_mul. apply sm_ext. intros p Hp. exact (cs_lowered n x psi' psi c 1 p p HP Hc ltac:(lia) Hp Hp H). }
  rewrite (G ni xi psi_i' psi_i a Pi Ci Ha), (G nj xj psi_j' psi_j b Pj Cj Hb). field.
Qed.
Theorem C76_s2_1s ni nj xi xj psi_i' psi_i psi_j' psi_j : (0 < ni)%nat -> (0 < nj)%nat -> proper ni xi psi_i' psi_i -> proper nj xj psi_j' psi_j -> changes xi 1 (-1) -> changes xj (-1) 1 ->
  let Q := two_m [false] [true] in
  let term (t : info -> Z -> (Z -> Z -> R) -> R) := s2_1s ni nj (fun p q => t xi (- Q)%Z (adj (el_sm ni psi_i psi_i' q p))) (fun p q => t xj Q (el_sm nj psi_j' psi_j p q)) in
  reduce_spin [xi; xj] (term high) = Ok (V (reduce_spin_none (term own))).
Proof.
  intros Hi Hj Pi Pj Ci Cj Q term. unfold term. clear term. destruct (raised ni xi psi_i' psi_i 0 0 Pi Hi Hi Ci) as (a & Ha & _). destruct (C76_sm nj xj _ _ 0 0 Pj Hj Hj Cj) as (b & Hb & _).
  unfold s2_1s. rewrite (reduce2 xi xj a b _ Ha Hb). unfold reduce_spin_none. cbn [map fst fold_right]. f_equal. unfold V. f_equal. rewrite Rplus_0_r.
  rewrite (sm_ext nj (fun p => own xj Q (el_sm nj psi_j' psi_j p p)) (fun p => b * high xj Q (el_sm nj psi_j' psi_j p p))) by (intros p Hp; unfold own; rewrite (lowered_at _ _ _ _ _ (C76_sm nj xj psi_j' psi_j p p Pj Hp Hp Cj) Hb), comp0; unfold Q; ring).
  rewrite (sm_ext ni (fun p => own xi (- Q) (adj (el_sm ni psi_i psi_i' p p))) (fun p => a * high xi (- Q) (adj (el_sm ni psi_i psi_i' p p)))) by (intros p Hp; unfold own; rewrite (lowered_at _ _ _ _ _ (raised ni xi psi_i' psi_i p p Pi Hp Hp Ci) Ha), comp0; unfold Q; ring).
  rewrite <- !sm_mul. ring.
Qed.

(** ** without multiplicities the terms are what the model of C68 computes *)
Definition spin2 (r : res (@opval Rs)) : res (option R) := do v <- r ;; Ok (snd v).
Section Same.
  Variable norb : nat -> nat.
  Variable ints : nat -> @fmats Rs.
  Variable uroot : nat -> nat -> nat.
  Variable h1 : nat -> nat * nat -> nat * nat -> R.
  Variable h2 : nat * nat -> nat * nat -> nat * nat -> nat * nat -> R.
  Variables (bra ket : nat * list nat).
  Notation half := (1 / 2).
Lemma tr2 n (a : @CrunchModel.arr Rs) : (trace2 (K:=Rs) n a : R) = sm n (fun p => a [p; p]).
Proof. apply bs. Qed.
Lemma bs2 n (f : nat -> nat -> R) : @bsum Rs nat (seq 0 n) (fun p => @bsum Rs nat (seq 0 n) (f p)) = sm n (fun p => sm n (f p)).
Proof. rewrite bs. apply sm_ext. intros p _. apply bs. Qed.
Theorem C76_s2_same_1d i d1 d2 : get_1_dm1 ints uroot i bra ket = Ok d1 -> get_1_dm2 ints uroot i bra ket = Ok d2 ->
  spin2 (ham_1d (K:=Rs) half norb ints uroot h1 h2 bra ket i) = Ok (Some (reduce_spin_none (s2_1d (norb i) (fun k p q => d1 [k; p; q]) (fun k p q r s => d2 [k; p; q; r; s])))).
Proof.
  intros E1 E2. unfold spin2, ham_1d. rewrite E1, E2. cbn [bind snd]. f_equal. f_equal. unfold reduce_spin_none, s2_1d. cbn [map fst fold_right]. rewrite Rplus_0_r. rewrite !bs2.
  assert (ET : @bsum Rs nat (seq 0 2) (fun s => trace2 (K:=Rs) (norb i) (sub s (tpose [0; 2; 1]%nat d1))) = sm 2 (fun s => sm (norb i) (fun p => d1 [s; p; p]))).
  { rewrite bs. apply sm_ext. intros s _. rewrite tr2. reflexivity. }
  rewrite ET. change (@sadd Rs) with Rplus. change (@smul Rs) with Rmult. change (@ssub Rs) with Rminus. cbv [quarter three]. change (@sadd Rs) with Rplus. change (@smul Rs) with Rmult. change (@s1 Rs) with 1.
  change (sm (norb i) (fun p => sm (norb i) (fun q => aadd (K:=Rs) (sub 1 d2) (sub 2 d2) [p; q; q; p]))) with (sm (norb i) (fun p => sm (norb i) (fun q => d2 [1; p; q; q; p]%nat + d2 [2; p; q; q; p]%nat))).
  change (car Rs) with R in *. field.
Qed.
Theorem C76_s2_same_2d i j di dj : get_1_dm1 ints uroot i bra ket = Ok di -> get_1_dm1 ints uroot j bra ket = Ok dj ->
  spin2 (ham_2d (K:=Rs) half norb ints uroot h2 bra ket i j) = Ok (Some (reduce_spin_none (s2_2d (norb i) (norb j) (fun k p q => di [k; p; q]) (fun k p q => dj [k; p; q])))).
Proof.
  intros E1 E2. unfold spin2, ham_2d. rewrite E1, E2. cbn [bind snd]. f_equal. f_equal. unfold reduce_spin_none, s2_2d. cbn [map fst fold_right]. rewrite Rplus_0_r, Rplus_0_l. rewrite !tr2. change (@smul Rs) with Rmult.
  match goal with |- _ = ?h / 2 => change (1 / 2 * h = h / 2) end. field.
Qed.
Theorem C76_s2_same_1s i j sp sq : get_1_sp ints uroot i bra ket = Ok sp -> get_1_sm ints uroot j bra ket = Ok sq ->
  spin2 (ham_1s (K:=Rs) norb ints uroot h2 bra ket i j) = Ok (Some (reduce_spin_none (s2_1s (norb i) (norb j) (fun p q => sp [p; q]) (fun p q => sq [p; q])))).
Proof.
  intros E1 E2. unfold spin2, ham_1s. rewrite E1, E2. cbn [bind snd]. f_equal. f_equal. unfold reduce_spin_none, s2_1s. cbn [map fst fold_right]. rewrite Rplus_0_r. rewrite !tr2. change (@smul Rs) with Rmult.
  match goal with |- _ = ?h => change (- - (1) * h = h) end. ring.
Qed.
End Same.

(** Two fragments with spins down and up: 2 (-1/2) (1/2) = -1/2, where the tables at high m have
    parallel spins and 1/2. *)
Example C76_s2_example : let d x t := fun k p q => t x (el_dm1 1 one one k p q) in let hi x := high x 0 in
  reduce_spin_none (s2_2d 1 1 (d x_dn hi) (d x_up hi)) = 1 / 2 /\ reduce_spin [x_dn; x_up] (s2_2d 1 1 (d x_dn hi) (d x_up hi)) = Ok (V (- 1 / 2)).
Proof.
  cbv zeta. destruct one_tables as (T1 & T2 & T3 & T4). split.
  - unfold reduce_spin_none, s2_2d. cbn [sm seq map fold_right fst cs]. rewrite (T1 0%nat), (T1 1%nat), (T3 0%nat), (T3 1%nat) by lia. cbn [Nat.eqb]. field.
  - pose proof (C76_s2_2d 1 1 x_dn x_up one one one one ltac:(lia) ltac:(lia) dn_proper up_proper) as H. cbv zeta in H. rewrite H by (split; reflexivity). f_equal. unfold V. f_equal.
    unfold reduce_spin_none, s2_2d. cbn [sm seq map fold_right fst cs]. rewrite (T2 0%nat), (T2 1%nat), (T4 0%nat), (T4 1%nat) by lia. cbn [Nat.eqb]. field.
Qed.
Print Assumptions C76_s2_1d.
Print Assumptions C76_s2_2d.
Print Assumptions C76_s2_1s.
Print Assumptions C76_s2_same_1d.
Print Assumptions C76_s2_same_2d.
Print Assumptions C76_s2_same_1s.
Print Assumptions C76_s2_example.
