(** C76: without multiplicities the terms are what the model of C68 computes. *)
From Coq Require Import List Bool Arith NArith ZArith Reals Lia Lra.
From Verif Require Import Base BaseFacts Star CrunchModel HamModel HamSum HamVals LsisUpdModel SmultSpec SmultModel SpfacModel SpfacRestModel SpfacFacts PropSmult PropSpfac PropSpfacTerm.
Import ListNotations.
Local Open Scope R_scope.

Lemma bs n (f : nat -> R) : @bsum Rs nat (seq 0 n) f = sm n f.
Proof. unfold sm. induction (seq 0 n) as [|x l IH]; [reflexivity|]. cbn [bsum map fold_right] in *. rewrite <- IH. reflexivity. Qed.
Lemma t1 d (a b : @CrunchModel.arr Rs) rest : tensordot (K:=Rs) [d] [1]%nat [1]%nat a b rest = sm d (fun v => a [v] * b (rest ++ [v])).
Proof. rewrite td1. apply bs. Qed.
Lemma s2_sm a b (F : nat -> nat -> Rs) : sum2 (K:=Rs) a b F = sm a (fun p => sm b (fun q => F p q)).
Proof. unfold sum2. rewrite bs. apply sm_ext. intros p _. apply bs. Qed.
Lemma t2x d (a b : @CrunchModel.arr Rs) rest : tensordot (K:=Rs) [d; d] [1; 2]%nat [2; 1]%nat a b rest = sm d (fun p => sm d (fun q => a [p; q] * b (rest ++ [q; p]))).
Proof. rewrite td2x. apply s2_sm. Qed.
Lemma t2 d (a b : @CrunchModel.arr Rs) rest : tensordot (K:=Rs) [d; d] [2; 1]%nat [2; 1]%nat a b rest = sm d (fun p => sm d (fun q => a [p; q] * b (rest ++ [p; q]))).
Proof. rewrite td2. apply s2_sm. Qed.
Lemma t3 x y z (a b : @CrunchModel.arr Rs) rest : tensordot (K:=Rs) [x; y; z] [3; 2; 1]%nat [3; 2; 1]%nat a b rest = sm x (fun s => sm y (fun p => sm z (fun q => a [s; p; q] * b (rest ++ [s; p; q])))).
Proof. rewrite td3, bs. apply sm_ext. intros s _. apply s2_sm. Qed.
Lemma t3a x y z (a b : @CrunchModel.arr Rs) rest : tensordot (K:=Rs) [x; y; z] [3; 2; 1]%nat [3; 1; 2]%nat a b rest = sm x (fun s => sm y (fun p => sm z (fun q => a [s; p; q] * b (rest ++ [s; q; p])))).
Proof. rewrite td3a, bs. apply sm_ext. intros s _. apply s2_sm. Qed.
Lemma t3b x y z (a b : @CrunchModel.arr Rs) rest : tensordot (K:=Rs) [x; y; z] [3; 2; 1]%nat [2; 3; 1]%nat a b rest = sm x (fun s => sm y (fun p => sm z (fun q => a [s; p; q] * b (rest ++ [p; s; q])))).
Proof. rewrite td3b, bs. apply sm_ext. intros s _. apply s2_sm. Qed.
Lemma t4 x y z w (a b : @CrunchModel.arr Rs) rest : tensordot (K:=Rs) [x; y; z; w] [4; 3; 2; 1]%nat [4; 3; 2; 1]%nat a b rest = sm x (fun p => sm y (fun q => sm z (fun r => sm w (fun u => a [p; q; r; u] * b (rest ++ [p; q; r; u]))))).
Proof. rewrite td4. unfold sum4. rewrite s2_sm. apply sm_ext. intros p _. apply sm_ext. intros q _. apply s2_sm. Qed.

(** the matrix element of a cruncher of the model of C68, without the squared spin *)
Definition elem (r : res (@opval Rs)) : res R := do v <- r ;; Ok (fst v).
Definition sign (b : bool) : R := if b then -1 else 1.
Lemma sgn_sign b : (@sgn Rs b : R) = sign b.
Proof. destruct b; cbv [sgn sopp s1 Rs sign]; ring. Qed.
Ltac deep := repeat (first [apply sm_ext; intros ? ? | apply (f_equal2 Rmult); [reflexivity|]]; cbv beta; rewrite ?t1, ?t2, ?t2x, ?t3, ?t3a, ?t3b); try reflexivity.

Section Same.
  Variable norb : nat -> nat.
  Variable ints : nat -> @fmats Rs.
  Variable uroot : nat -> nat -> nat.
  Variable nelec_rf : nat -> list nat.
  Variable h1 : nat -> nat * nat -> nat * nat -> R.
  Variable h2 : nat * nat -> nat * nat -> nat * nat -> nat * nat -> R.
  Variables (bra ket : nat * list nat).
  Notation half := (1 / 2).

Theorem C76_same_1d i d1 d2 : get_1_dm1 ints uroot i bra ket = Ok d1 -> get_1_dm2 ints uroot i bra ket = Ok d2 ->
    elem (ham_1d (K:=Rs) half norb ints uroot h1 h2 bra ket i) =
    Ok (reduce_spin_none (term_1d (norb i) (fun s p q => h1 s (i, p) (i, q)) (fun p q r s => h2 (i, p) (i, q) (i, r) (i, s)) (fun k p q => d1 [k; p; q]) (fun k p q r s => d2 [k; p; q; r; s]))).
  Proof.
    intros E1 E2. unfold elem, ham_1d. rewrite E1, E2. cbn [bind fst]. f_equal. unfold reduce_spin_none, term_1d. cbn [map fst fold_right]. rewrite Rplus_0_r.
    rewrite t3, t4. change (@sadd Rs) with Rplus. change (@smul Rs) with Rmult. apply (f_equal2 Rplus).
    - deep.
    - apply (f_equal2 Rmult); [|reflexivity]. do 4 (apply sm_ext; intros ? ?). apply (f_equal2 Rmult); [|reflexivity]. unfold tpose, sum0. rewrite bs. reflexivity.
  Qed.
Theorem C76_same_2d i j di dj : get_1_dm1 ints uroot i bra ket = Ok di -> get_1_dm1 ints uroot j bra ket = Ok dj ->
    elem (ham_2d (K:=Rs) half norb ints uroot h2 bra ket i j) =
    Ok (reduce_spin_none (term_2d (norb i) (norb j) (fun p q r s => h2 (j, p) (j, q) (i, r) (i, s)) (fun p q r s => h2 (j, p) (i, q) (i, r) (j, s)) (fun k p q => di [k; p; q]) (fun k p q => dj [k; p; q]))).
  Proof.
    intros E1 E2. unfold elem, ham_2d. rewrite E1, E2. cbn [bind fst]. f_equal. unfold reduce_spin_none, term_2d. cbn [map fst fold_right]. rewrite Rplus_0_r.
    rewrite !t2x. change (@sadd Rs) with Rplus. change (@ssub Rs) with Rminus.
    assert (EX : forall s, (s < 2)%nat -> sm (norb j) (fun p => sm (norb j) (fun q => sub s (to_cs dj) [p; q] * tensordot (K:=Rs) [norb i; norb i] [1; 2]%nat [2; 1]%nat (sub s (to_cs di)) (ascale (K:=Rs) half (tpose [0; 3; 2; 1]%nat (ham4 (K:=Rs) h2 j i i j))) ([] ++ [q; p]))) =
      sm (norb j) (fun r => sm (norb j) (fun u => cs (fun k p q => dj [k; p; q]) s r u * sm (norb i) (fun p => sm (norb i) (fun q => cs (fun k p q => di [k; p; q]) s p q * (h2 (j, u) (i, p) (i, q) (j, r) / 2)))))).
    { intros s Hs. do 2 (apply sm_ext; intros ? ?). apply (f_equal2 Rmult); [destruct s as [|[|]]; [reflexivity|reflexivity|lia]|]. rewrite t2x. do 2 (apply sm_ext; intros ? ?). apply (f_equal2 Rmult); [destruct s as [|[|]]; [reflexivity|reflexivity|lia]|].
      match goal with |- _ = ?h / 2 => change (1 / 2 * h = h / 2) end. field. }
    rewrite (EX 0%nat), (EX 1%nat) by lia. apply (f_equal2 Rplus); [|reflexivity]. apply (f_equal2 Rminus); [|reflexivity]. deep.
  Qed.
Theorem C76_same_1c i j s f1 f2 p_i pph h_j phh : des nelec_rf bra [i; j] i = Ok f1 -> des nelec_rf ket [i; j] j = Ok f2 -> get_1_p ints uroot i bra ket s = Ok p_i -> get_1_pph ints uroot i bra ket s = Ok pph ->
    get_1_h ints uroot j bra ket s = Ok h_j -> get_1_phh ints uroot j bra ket s = Ok phh ->
    elem (ham_1c (K:=Rs) norb ints uroot nelec_rf h1 h2 bra ket i j s) =
    Ok (reduce_spin_none (term_1c (norb i) (norb j) (sign (xorb f1 f2)) (fun p q => h1 s (j, p) (i, q)) (fun p q r u => h2 (j, p) (i, q) (i, r) (i, u)) (fun p q r u => h2 (j, p) (j, q) (j, r) (i, u))
      (fun p => p_i [p]) (fun k p q r => pph [k; p; q; r]) (fun p => h_j [p]) (fun k p q r => phh [k; p; q; r]))).
  Proof.
    intros E1 E2 E3 E4 E5 E6. unfold elem, ham_1c. rewrite E1, E2, E3, E4, E5, E6. cbn [bind fst]. f_equal. unfold reduce_spin_none, term_1c. cbn [map fst fold_right]. rewrite Rplus_0_r.
    rewrite !t1, t3b. change (@sadd Rs) with Rplus. change (@smul Rs) with Rmult. rewrite sgn_sign, Rmult_comm. apply (f_equal2 Rmult); [|reflexivity]. apply (f_equal2 Rplus); [apply (f_equal2 Rplus)|].
    - deep.
    - apply sm_ext; intros ? ?. apply (f_equal2 Rmult); [reflexivity|]. rewrite t3a. do 3 (apply sm_ext; intros ? ?). apply (f_equal2 Rmult); [|reflexivity]. unfold sum0. apply bs.
    - do 3 (apply sm_ext; intros ? ?). apply (f_equal2 Rmult); [unfold sum0; apply bs|]. rewrite t1. deep.
  Qed.
Theorem C76_same_1s i j sp sq : get_1_sp ints uroot i bra ket = Ok sp -> get_1_sm ints uroot j bra ket = Ok sq ->
    elem (ham_1s (K:=Rs) norb ints uroot h2 bra ket i j) =
    Ok (reduce_spin_none (term_1s (norb i) (norb j) (fun p q r s => h2 (j, p) (i, q) (i, r) (j, s)) (fun p q => sp [p; q]) (fun p q => sq [p; q]))).
  Proof.
    intros E1 E2. unfold elem, ham_1s. rewrite E1, E2. cbn [bind fst]. f_equal. unfold reduce_spin_none, term_1s. cbn [map fst fold_right]. rewrite Rplus_0_r.
    rewrite !t2. change (@smul Rs) with Rmult. rewrite sgn_sign, Rmult_comm. apply (f_equal2 Rmult); [|reflexivity]. deep.
  Qed.
Theorem C76_same_1s1c i j k s f1 f2 p_i h_j d_kk : (s < 2)%nat -> des nelec_rf bra [i; j; k] i = Ok f1 -> des nelec_rf ket [i; j; k] j = Ok f2 -> get_1_p ints uroot i bra ket s = Ok p_i -> get_1_h ints uroot j bra ket (1 - s) = Ok h_j ->
    (if (s =? 0)%nat then get_1_sm ints uroot k bra ket else get_1_sp ints uroot k bra ket) = Ok d_kk ->
    elem (ham_1s1c (K:=Rs) norb ints uroot nelec_rf h2 bra ket i j k s) =
    Ok (reduce_spin_none (term_1s1c (norb i) (norb j) (norb k) (sign (negb (xorb f1 f2))) (fun p q r s => h2 (j, p) (k, q) (k, r) (i, s)) (fun p => p_i [p]) (fun p => h_j [p]) (fun p q => d_kk [p; q]))).
  Proof.
    intros Hs E1 E2 E3 E4 E5. unfold elem, ham_1s1c. rewrite E1, E2, E3. cbn [bind]. rewrite E4. cbn [bind]. rewrite E5. cbn [bind fst]. f_equal. unfold reduce_spin_none, term_1s1c. cbn [map fst fold_right]. rewrite Rplus_0_r.
    rewrite !t2. change (@smul Rs) with Rmult. rewrite sgn_sign, Rmult_comm. apply (f_equal2 Rmult); [|now rewrite xorb_true_l]. deep.
  Qed.
Theorem C76_same_1c1d i j k s f1 f2 p_i h_j d_k : (s < 2)%nat -> des nelec_rf bra [i; j; k] i = Ok f1 -> des nelec_rf ket [i; j; k] j = Ok f2 -> get_1_p ints uroot i bra ket s = Ok p_i -> get_1_h ints uroot j bra ket s = Ok h_j ->
    get_1_dm1 ints uroot k bra ket = Ok d_k ->
    elem (ham_1c1d (K:=Rs) half norb ints uroot nelec_rf h2 bra ket i j k s) =
    Ok (reduce_spin_none (term_1c1d (norb i) (norb j) (norb k) s (sign (xorb f1 f2)) (fun p q r u => h2 (k, p) (k, q) (j, r) (i, u)) (fun p q r u => h2 (j, p) (k, q) (k, r) (i, u)) (fun p => p_i [p]) (fun p => h_j [p]) (fun c p q => d_k [c; p; q]))).
  Proof.
    intros Hs E1 E2 E3 E4 E5. unfold elem, ham_1c1d. rewrite E1, E2, E3, E4, E5. cbn [bind fst]. f_equal. unfold reduce_spin_none, term_1c1d. cbn [map fst fold_right]. rewrite Rplus_0_r.
    rewrite !t2x, !t2. change (@sadd Rs) with Rplus. change (@smul Rs) with Rmult. change (@ssub Rs) with Rminus. rewrite sgn_sign. apply (f_equal2 Rplus); (apply (f_equal2 Rmult); [|reflexivity]); apply (f_equal2 Rminus).
    - deep.
    - do 2 (apply sm_ext; intros ? ?). apply (f_equal2 Rmult); [match goal with |- _ = ?h / 2 => change (1 / 2 * h = h / 2) end; field|]. rewrite t1. deep.
    - reflexivity.
    - do 2 (apply sm_ext; intros ? ?). apply (f_equal2 Rmult); [|rewrite t1; deep]. destruct s as [|[|]]; [| |lia]; cbn [Nat.eqb]; match goal with |- _ = ?c * 1 / 2 => change (1 / 2 * (1 * c) = c * 1 / 2) | |- _ = ?c * -1 / 2 => change (1 / 2 * (- (1) * c) = c * -1 / 2) end; field.
  Qed.

  (** tables of the two electrons that leave and of the two that arrive, for the spins [s2lt] *)
  Definition s_first (s2lt : nat) : nat := nth s2lt [0; 1; 3]%nat 0%nat / 2.
  Definition s_second (s2lt : nat) : nat := nth s2lt [0; 1; 3]%nat 0%nat mod 2.
  Definition leaving (i j s2lt : nat) (t : nat -> nat -> R) : Prop :=
    if (i =? j)%nat then exists hh, get_1_hh ints uroot i bra ket s2lt = Ok hh /\ t = (fun w x => hh [w; x])
    else exists h_i h_j, get_1_h ints uroot i bra ket (s_first s2lt) = Ok h_i /\ get_1_h ints uroot j bra ket (s_second s2lt) = Ok h_j /\ t = (fun w x => h_j [w] * h_i [x]).
  Definition arriving (a b s2lt : nat) (t : nat -> nat -> R) : Prop :=
    if (a =? b)%nat then exists pp, get_1_pp ints uroot a bra ket s2lt = Ok pp /\ t = (fun y z => pp [y; z])
    else exists p_a p_b, get_1_p ints uroot a bra ket (s_first s2lt) = Ok p_a /\ get_1_p ints uroot b bra ket (s_second s2lt) = Ok p_b /\ t = (fun y z => p_a [y] * p_b [z]).
  Lemma dot1 n m (x y : @CrunchModel.arr Rs) h rest : tensordot (K:=Rs) [n] [1]%nat [1]%nat x (tensordot (K:=Rs) [m] [1]%nat [1]%nat y h) rest = sm n (fun p => sm m (fun q => (x [p] : R) * y [q] * h (rest ++ [p; q]))).
  Proof. rewrite t1. apply sm_ext. intros p _. rewrite t1, sm_mul. apply sm_ext. intros q _. rewrite <- app_assoc. cbn [app]. rewrite <- Rmult_assoc. reflexivity. Qed.

Theorem C76_same_2c a i b j s2lt f1 f2 x y x' y' t_ij t_ab : (s2lt < 3)%nat -> leaving i j s2lt t_ij -> arriving a b s2lt t_ab ->
    (if (i =? j)%nat then f1 = false else des nelec_rf ket [a; i; b; j] i = Ok x /\ des nelec_rf ket [a; i; b; j] j = Ok y /\ f1 = xorb (j <? i)%nat (xorb x y)) ->
    (if (a =? b)%nat then f2 = false else des nelec_rf bra [a; i; b; j] a = Ok x' /\ des nelec_rf bra [a; i; b; j] b = Ok y' /\ f2 = xorb (b <? a)%nat (xorb x' y')) ->
    elem (ham_2c (K:=Rs) half norb ints uroot nelec_rf h2 bra ket a i b j s2lt) = Ok (reduce_spin_none (term_2c_any norb a i b j (negb (s2lt =? 1)%nat) (sign f1 * sign f2) h2 t_ij t_ab)).
  Proof.
    intros Hs Hij Hab F1 F2. unfold elem, ham_2c. fold (s_first s2lt) (s_second s2lt). cbv zeta.
    assert (SS : (s_first s2lt =? s_second s2lt)%nat = negb (s2lt =? 1)%nat) by (destruct s2lt as [|[|[|]]]; [reflexivity..|lia]).
    match goal with |- bind (bind ?A _) _ = _ => replace A with (@Ok bool f1) by (destruct (i =? j)%nat; [subst f1; reflexivity|destruct F1 as (-> & -> & ->); reflexivity]) end. cbn [bind].
    match goal with |- bind (bind ?A _) _ = _ => replace A with (@Ok bool f2) by (destruct (a =? b)%nat; [subst f2; reflexivity|destruct F2 as (-> & -> & ->); reflexivity]) end. cbn [bind].
    rewrite SS. set (same := negb (s2lt =? 1)%nat). unfold leaving in Hij. unfold arriving in Hab.
    assert (DAB : exists dab : @CrunchModel.arr Rs -> @CrunchModel.arr Rs, (forall h rest, (dab h rest : R) = sm (norb a) (fun y => sm (norb b) (fun z => t_ab y z * h (rest ++ [y; z])))) /\
      (if (a =? b)%nat then do pp <- get_1_pp ints uroot a bra ket s2lt ;; Ok (tensordot (K:=Rs) [norb a; norb a] [2; 1]%nat [2; 1]%nat pp)
       else do p_b <- get_1_p ints uroot b bra ket (s_second s2lt) ;; do p_a <- get_1_p ints uroot a bra ket (s_first s2lt) ;;
            Ok (fun h => tensordot (K:=Rs) [norb a] [1]%nat [1]%nat p_a (tensordot (K:=Rs) [norb b] [1]%nat [1]%nat p_b h))) = Ok dab).
    { revert Hab. destruct (Nat.eqb_spec a b) as [<-|N]; [intros (pp & -> & ->)|intros (pa & pb & -> & -> & ->)]; cbn [bind]; (eexists; split; [|reflexivity]); intros h rest; cbv beta; [apply t2|apply dot1]. }
    destruct DAB as (dab & HAB & ->). cbn [bind].
    assert (DIJ : exists dij : @CrunchModel.arr Rs -> @CrunchModel.arr Rs, (forall h rest, (dij h rest : R) = sm (norb j) (fun y => sm (norb i) (fun z => t_ij y z * h (rest ++ [y; z])))) /\
      (if (i =? j)%nat then do hh <- get_1_hh ints uroot i bra ket s2lt ;; Ok (tensordot (K:=Rs) [norb i; norb i] [2; 1]%nat [2; 1]%nat hh)
       else do h_i <- get_1_h ints uroot i bra ket (s_first s2lt) ;; do h_j <- get_1_h ints uroot j bra ket (s_second s2lt) ;;
            Ok (fun h => tensordot (K:=Rs) [norb j] [1]%nat [1]%nat h_j (tensordot (K:=Rs) [norb i] [1]%nat [1]%nat h_i h))) = Ok dij).
    { revert Hij. destruct (Nat.eqb_spec i j) as [<-|N]; [intros (pp & -> & ->)|intros (pa & pb & -> & -> & ->)]; cbn [bind]; (eexists; split; [|reflexivity]); intros h rest; cbv beta; [apply t2|apply dot1]. }
    destruct DIJ as (dij & HIJ & ->). cbn [bind fst]. f_equal.
    assert (D : forall h : @CrunchModel.arr Rs, (dij (dab h) [] : R) = sm (norb j) (fun w => sm (norb i) (fun x => t_ij w x * sm (norb a) (fun y => sm (norb b) (fun z => t_ab y z * h [w; x; y; z]))))).
    { intros h. rewrite HIJ. do 2 (apply sm_ext; intros ? ?). f_equal. apply HAB. }
    unfold term_2c_any, reduce_spin_none. cbv zeta. fold same.
    assert (FAC : (smul (s:=Rs) (if ((a =? b)%nat && (i =? j)%nat && same)%bool then half else @s1 Rs) (smul (@sgn Rs f1) (@sgn Rs f2)) : R) = (if ((a =? b)%nat && (i =? j)%nat && same)%bool then 1 / 2 else 1) * (sign f1 * sign f2)).
    { pose proof (sgn_sign f1) as G1. pose proof (sgn_sign f2) as G2. change (@smul Rs) with Rmult. rewrite G1, G2. reflexivity. }
    destruct (negb same && ((a =? b)%nat || (i =? j)%nat))%bool; [|destruct (same && negb (a =? b)%nat && negb (i =? j)%nat)%bool]; cbn [bsum map fst fold_right]; change (@sadd Rs) with Rplus; change (@s0 Rs) with 0; change (@smul Rs) with Rmult in *; rewrite FAC, !D; reflexivity.
  Qed.
End Same.
(** The fragments of [C76_example]: the model of C68, with tables of the members, gives what reduce_spin makes of the term at high m. *)
Example C76_same_example :
  let down_up f := @mkFmats Rs (fun _ _ _ => None) (fun _ _ _ => None) (fun _ _ _ => None) (fun _ _ => None) (fun _ _ => Some (fun x => if (hd 0 x =? 1 - f)%nat then 1 else 0)) (fun _ _ => None) in
  let ones := fun _ _ _ _ : nat * nat => 1 in let d x := fun k p q => high x 0 (el_dm1 1 one one k p q) in
  elem (ham_2d (K:=Rs) (1 / 2) (fun _ => 1%nat) down_up (fun _ _ => 0%nat) ones (0, [0; 0])%nat (0, [0; 0])%nat 0 1) = Ok 1 /\
  reduce_spin [x_dn; x_up] (term_2d 1 1 (fun _ _ _ _ => 1) (fun _ _ _ _ => 1) (d x_dn) (d x_up)) = Ok (V 1).
Proof.
  cbv zeta. split; [|exact (proj2 (proj2 (proj2 (proj2 C76_example))))]. erewrite C76_same_2d by reflexivity. f_equal. unfold reduce_spin_none, term_2d. cbn [sm seq map fold_right fst cs hd Nat.eqb Nat.sub]. field.
Qed.
Print Assumptions C76_same_1d.
Print Assumptions C76_same_2d.
Print Assumptions C76_same_1c.
Print Assumptions C76_same_1s.
Print Assumptions C76_same_1s1c.
Print Assumptions C76_same_1c1d.
Print Assumptions C76_same_2c.
Print Assumptions C76_same_example.
