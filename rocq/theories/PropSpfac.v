(** C76: matrix elements made at high m are lowered by spin factors. *)
From Coq Require Import List Bool Arith NArith ZArith Reals Lia Lra.
From Verif Require Import Base BaseFacts Star FockSpec FockFacts FockOps LsisUpdModel SmultSpec SmultComm SmultModel PropSmult SpfacModel SpfacFacts.
Import ListNotations.
Local Open Scope R_scope.

(** ** what is claimed *)
(** bra and ket are members of two multiplets of spin, with the electrons and multiplicities of [x] *)
Definition proper (n : nat) (x : info) (psi' psi : Z -> vec Rs) : Prop :=
  multiplet n (i_sbra x - 1) psi' /\ multiplet n (i_sket x - 1) psi /\ member (i_sbra x - 1) (spin_of (i_bra x)) /\ member (i_sket x - 1) (spin_of (i_ket x)).
(** the bra has [da] electrons of spin up and [db] of spin down more than the ket *)
Definition changes (x : info) (da db : Z) : Prop :=
  Z.of_nat (fst (i_bra x)) = (Z.of_nat (fst (i_ket x)) + da)%Z /\ Z.of_nat (snd (i_bra x)) = (Z.of_nat (snd (i_ket x)) + db)%Z.
(** <bra|O|ket> = a b <highm (bra)|O|highm (ket)>: the docstrings, frag.py:1182-1183, 1198-1199; O adds [Q] to 2m and [f] has its elements *)
Definition lowered (x : info) (comp : nat) (Q : Z) (f : Z -> Z -> R) : Prop :=
  exists a, spin_factor_constant x = Ok (V a) /\
    f (spin_of (i_bra x)) (spin_of (i_ket x)) = a * spin_factor_component x comp * at_high (i_sbra x - 1) (i_sket x - 1) Q f.

Lemma const_eq x da db : changes x da db -> (da < 0 \/ da = 0 /\ db <= 0)%Z -> spin_factor_constant x = scale_dnelec (da, db) (i_sbra x) (i_sket x) (spin_of (i_ket x)).
Proof.
  intros [H1 H2] N. unfold spin_factor_constant. replace (Z.of_nat (fst (i_bra x)) - Z.of_nat (fst (i_ket x)))%Z with da by lia. replace (Z.of_nat (snd (i_bra x)) - Z.of_nat (snd (i_ket x)))%Z with db by lia.
  destruct (Z.ltb_spec 0 da), (Z.eqb_spec da 0), (Z.ltb_spec 0 db); cbn [orb andb]; try lia; reflexivity.
Qed.
Lemma spin_change x da db : changes x da db -> spin_of (i_bra x) = (spin_of (i_ket x) + (da - db))%Z.
Proof. intros [H1 H2]. unfold spin_of. lia. Qed.
Lemma comp0 x : spin_factor_component x 0 = 1.
Proof. unfold spin_factor_component. cbn [Nat.eqb]. rewrite orb_true_r. reflexivity. Qed.

(** ** annihilation of one electron *)
Theorem C76_h n x psi' psi op p : proper n x psi' psi -> (op < 2)%nat -> (p < n)%nat -> changes x (if dn op then 0 else -1) (if dn op then -1 else 0) ->
  lowered x 0 (two_m [dn op] []) (el_h n psi' psi op p).
Proof.
  intros (Hb & Hk & B & A0) Hop Hp Hc. pose proof (const_eq _ _ _ Hc) as HC. rewrite (spin_change _ _ _ Hc) in B. pose proof (spin_change _ _ _ Hc) as HM. unfold lowered. rewrite HM, comp0.
  assert (EQ : ((if dn op then 0 else -1) - (if dn op then -1 else 0) = two_m [dn op] [])%Z) by (destruct (dn op); reflexivity). rewrite EQ in *.
  pose proof (C73_h n _ _ psi' psi _ op p Hb Hk Hop Hp A0 B) as K. unfold mdown_h in K. rewrite !Z.sub_simpl_r in K. apply V_inv in K. destruct K as (a & Ka & Kb). exists a. split.
  - rewrite HC by (destruct (dn op); lia). destruct op as [|[|]]; [| |lia]; cbn [dn Nat.eqb negb scale_dnelec]; rewrite Ka; reflexivity.
  - rewrite Kb. ring.
Qed.
(** ** annihilation of two electrons of the same spin *)
Theorem C76_hh n x psi' psi op p q : proper n x psi' psi -> op = 0%nat \/ op = 2%nat -> (p < n)%nat -> (q < n)%nat -> changes x (if dn op then 0 else -2) (if dn op then -2 else 0) ->
  lowered x 0 (two_m [(1 <=? op)%nat; (2 <=? op)%nat] []) (el_hh n psi' psi op p q).
Proof.
  intros (Hb & Hk & B & A0) Hop Hp Hq Hc. pose proof (const_eq _ _ _ Hc) as HC. rewrite (spin_change _ _ _ Hc) in B. pose proof (spin_change _ _ _ Hc) as HM. unfold lowered. rewrite HM, comp0.
  assert (EQ : ((if dn op then 0 else -2) - (if dn op then -2 else 0) = two_m [(1 <=? op)%nat; (2 <=? op)%nat] [])%Z) by (destruct Hop as [->| ->]; reflexivity). rewrite EQ in *.
  pose proof (C73_hh n _ _ psi' psi _ op p q Hb Hk ltac:(lia) Hp Hq A0 B) as K. unfold mdown_hh in K. rewrite !Z.sub_simpl_r in K.
  assert (K' : V (at_high (i_sbra x - 1) (i_sket x - 1) (two_m [(1 <=? op)%nat; (2 <=? op)%nat] []) (el_hh n psi' psi op p q)) *! scale_hh (i_sbra x) op (i_sket x) (spin_of (i_ket x))
    = Some (el_hh n psi' psi op p q (spin_of (i_ket x) + two_m [(1 <=? op)%nat; (2 <=? op)%nat] [])%Z (spin_of (i_ket x)))).
  { rewrite <- K. destruct Hop as [->| ->]; destruct (i_sbra x - i_sket x)%Z; reflexivity. }
  apply V_inv in K'. destruct K' as (a & Ka & Kb). exists a. split.
  - rewrite HC by (destruct (dn op); lia). destruct Hop as [->| ->]; cbn [dn Nat.eqb negb scale_dnelec]; rewrite Ka; reflexivity.
  - rewrite Kb. ring.
Qed.
(** ** a spin is lowered *)
Theorem C76_sm n x psi' psi p q : proper n x psi' psi -> (p < n)%nat -> (q < n)%nat -> changes x (-1) 1 -> lowered x 0 (two_m [false] [true]) (el_sm n psi' psi p q).
Proof.
  intros (Hb & Hk & B & A0) Hp Hq Hc. pose proof (const_eq _ _ _ Hc) as HC. rewrite (spin_change _ _ _ Hc) in B. pose proof (spin_change _ _ _ Hc) as HM. unfold lowered. rewrite HM, comp0.
  change (-1 - 1)%Z with (two_m [false] [true]) in *.
  pose proof (C73_sm n _ _ psi' psi _ p q Hb Hk Hp Hq A0 B) as K. unfold mdown_sm in K. rewrite !Z.sub_simpl_r in K. apply V_inv in K. destruct K as (a & Ka & Kb). exists a. split.
  - rewrite HC by lia. cbn [scale_dnelec]. rewrite Ka. reflexivity.
  - rewrite Kb. ring.
Qed.

(** ** sums and differences *)
Definition pm (c : nat) : R := if (c =? 0)%nat then 1 else -1.
(** operators of spin one have no elements between singlets *)
Lemma singlet_up : up 0 0 = 0. Proof. unfold up. replace ((hf 0 - hf 0) * (hf 0 + hf 0 + 1)) with 0 by ring. apply sqrt_0. Qed.
Lemma singlet_down : down 0 0 = 0. Proof. unfold down, hf. replace ((0 / 2 + 0 / 2) * (0 / 2 - 0 / 2 + 1)) with 0 by field. apply sqrt_0. Qed.
Lemma singlet_hh n psi' psi p q : multiplet n 0 psi' -> multiplet n 0 psi -> (p < n)%nat -> (q < n)%nat -> el_hh n psi' psi 1 p q 0 0 = el_hh n psi' psi 1 q p 0 0.
Proof.
  intros Hb Hk Hp Hq. assert (Z0 : member 0 0) by (split; [lia|exists 0%Z; lia]).
  pose proof (comm_M n 0 0 psi' psi Hb Hk [(false, true, p); (false, true, q)] ltac:(repeat constructor; assumption) 0%Z 0%Z Z0 Z0) as K.
  rewrite singlet_up, singlet_down in K. cbn [der dM1 map app fst snd comb fold_right] in K.
  pose proof (E_swap n psi' psi [] false false true p q [] 0%Z 0%Z Hp Hq) as X. cbn [app] in X.
  change (el_hh n psi' psi 1 p q 0 0) with (E n psi' psi [(false, true, p); (false, false, q)] 0 0). change (el_hh n psi' psi 1 q p 0 0) with (E n psi' psi [(false, true, q); (false, false, p)] 0 0).
  rewrite X in K. lra.
Qed.
Lemma singlet_dm1 n psi' psi p q : multiplet n 0 psi' -> multiplet n 0 psi -> (p < n)%nat -> (q < n)%nat -> el_dm1 n psi' psi 0 p q 0 0 = el_dm1 n psi' psi 1 p q 0 0.
Proof.
  intros Hb Hk Hp Hq. assert (Z0 : member 0 0) by (split; [lia|exists 0%Z; lia]).
  pose proof (comm_M n 0 0 psi' psi Hb Hk [(true, false, p); (false, true, q)] ltac:(repeat constructor; assumption) 0%Z 0%Z Z0 Z0) as K.
  rewrite singlet_up, singlet_down in K. cbn [der dM1 map app fst snd comb fold_right] in K.
  change (el_dm1 n psi' psi 0 p q 0 0) with (E n psi' psi [(true, false, p); (false, false, q)] 0 0). change (el_dm1 n psi' psi 1 p q 0 0) with (E n psi' psi [(true, true, p); (false, true, q)] 0 0).
  lra.
Qed.
Lemma half_ratio M S : IZR S <> 0 -> IZR M / IZR S = half M / half S.
Proof. intros N. unfold half. field. exact N. Qed.
Lemma half_nz S : S <> 0%Z -> half S <> 0.
Proof. intros N. unfold half. apply not_0_IZR in N. lra. Qed.
Lemma div_ok a b : b <> 0 -> V a /! V b = V (a / b).
Proof. intros N. unfold ndiv, V. destruct (Req_EM_T b 0); [contradiction|reflexivity]. Qed.

Theorem C76_dm1 n x psi' psi c p q : proper n x psi' psi -> (c < 2)%nat -> (p < n)%nat -> (q < n)%nat -> changes x 0 0 ->
  lowered x c 0 (fun M' M => el_dm1 n psi' psi 0 p q M' M + pm c * el_dm1 n psi' psi 1 p q M' M).
Proof.
  intros (Hb & Hk & B & A0) Hcc Hp Hq Hc. pose proof (const_eq _ _ _ Hc) as HC. rewrite (spin_change _ _ _ Hc) in B. pose proof (spin_change _ _ _ Hc) as HM. unfold lowered. rewrite HM. change (0 - 0)%Z with 0%Z in *. rewrite Z.add_0_r in *.
  rewrite HC by lia. cbn [scale_dnelec].
  pose proof (fun k (Hkk : (k < 2)%nat) => C73_dm1 n _ _ psi' psi _ k p q Hb Hk Hkk Hp Hq A0 B) as K. unfold mdown_dm1 in K. rewrite !Z.sub_simpl_r in K.
  pose proof (K 0%nat ltac:(lia)) as K0. pose proof (K 1%nat ltac:(lia)) as K1. clear K. cbv beta zeta in K0, K1. unfold spin_factor_component.
  replace (at_high (i_sbra x - 1) (i_sket x - 1) 0 (fun M' M => el_dm1 n psi' psi 0 p q M' M + pm c * el_dm1 n psi' psi 1 p q M' M)) with (at_high (i_sbra x - 1) (i_sket x - 1) 0 (el_dm1 n psi' psi 0 p q) + pm c * at_high (i_sbra x - 1) (i_sket x - 1) 0 (el_dm1 n psi' psi 1 p q)) by reflexivity.
  destruct (Z.eqb_spec (i_sbra x) (i_sket x)) as [E|E].
  - rewrite E in *. rewrite Z.sub_diag, Z.max_id in K0, K1. cbn [Z.abs Z.opp negb orb] in K0, K1 |- *.
    assert (S1 : forall m, scale_dm (i_sket x) (i_sket x) m = V 1) by (intros m; unfold scale_dm; rewrite Z.ltb_irrefl, Z.sub_diag; reflexivity). rewrite !S1 in *. exists 1. split; [reflexivity|].
    set (S := (i_sket x - 1)%Z) in *. assert (ES : i_sket x = (S + 1)%Z) by (unfold S; lia). set (M := spin_of (i_ket x)) in *. rewrite ES. replace (S + 1 =? 1)%Z with (S =? 0)%Z by (destruct (Z.eqb_spec S 0), (Z.eqb_spec (S + 1) 1); lia).
    destruct (Z.eqb_spec S 0) as [E0|E0].
    + rewrite E0 in *. assert (EM : M = 0%Z) by (destruct A0 as [? _]; lia). rewrite EM in *. cbn [tr_dm1_0 Z.eqb lc fold_right fst snd nmul nadd V] in K0, K1. injection K0 as K0. injection K1 as K1.
      pose proof (singlet_dm1 n psi' psi p q Hb Hk Hp Hq) as X. destruct c as [|[|]]; [| |lia]; cbn [pm Nat.eqb]; lra.
    + rewrite half_ratio by (apply not_0_IZR; exact E0). pose proof (half_nz S E0) as NZ. set (s := half S) in *. set (m := half M) in *. unfold tr_dm1_0 in K0, K1.
      destruct (Z.eqb_spec M S) as [EM|EM].
      * cbn [lc fold_right fst snd nmul nadd V] in K0, K1. injection K0 as K0. injection K1 as K1. rewrite <- K0, <- K1. assert (m = s) by (unfold m, s; rewrite EM; reflexivity).
        destruct c as [|[|]]; [| |lia]; cbn [pm Nat.eqb]; [ring|]. replace (m / s) with 1 by (rewrite H; field; exact NZ). ring.
      * destruct (Z.eqb_spec M (- S)) as [EM'|EM'].
        -- cbn [lc fold_right fst snd nmul nadd V] in K0, K1. injection K0 as K0. injection K1 as K1. rewrite <- K0, <- K1. assert (m = - s) by (unfold m, s, half; rewrite EM', opp_IZR; field).
           destruct c as [|[|]]; [| |lia]; cbn [pm Nat.eqb]; [ring|]. replace (m / s) with (-1) by (rewrite H; field; exact NZ). ring.
        -- fold s m in K0, K1. repeat rewrite div_ok in K0 by exact NZ; repeat rewrite div_ok in K1 by exact NZ. cbn [lc fold_right fst snd nmul nadd V] in K0, K1. injection K0 as K0. injection K1 as K1. rewrite <- K0, <- K1.
           destruct c as [|[|]]; [| |lia]; cbn [pm Nat.eqb]; field; exact NZ.
  - set (h0 := at_high _ _ 0 (el_dm1 n psi' psi 0 p q)) in *. set (h1 := at_high _ _ 0 (el_dm1 n psi' psi 1 p q)) in *. cbn [negb orb]. assert (N : (- Z.abs (i_sbra x - i_sket x) <> 0)%Z) by lia. assert (K0' : V h0 *! scale_dm (i_sbra x) (i_sket x) (spin_of (i_ket x)) = Some (el_dm1 n psi' psi 0 p q (spin_of (i_ket x)) (spin_of (i_ket x)))) by (rewrite <- K0; destruct (- Z.abs (i_sbra x - i_sket x))%Z; [contradiction|reflexivity|reflexivity]).
    assert (K1' : V h1 *! scale_dm (i_sbra x) (i_sket x) (spin_of (i_ket x)) = Some (el_dm1 n psi' psi 1 p q (spin_of (i_ket x)) (spin_of (i_ket x)))) by (rewrite <- K1; destruct (- Z.abs (i_sbra x - i_sket x))%Z; [contradiction|reflexivity|reflexivity]).
    apply V_inv in K0'. destruct K0' as (a & Ka & Kb). rewrite Ka in K1' |- *. cbn [nmul V] in K1'. injection K1' as K1'. exists a. split; [reflexivity|]. rewrite Kb, <- K1'. ring.
Qed.
Theorem C76_hh_mixed n x psi' psi c p q : proper n x psi' psi -> (c < 2)%nat -> (p < n)%nat -> (q < n)%nat -> changes x (-1) (-1) ->
  lowered x c 0 (fun M' M => el_hh n psi' psi 1 p q M' M + pm c * el_hh n psi' psi 1 q p M' M).
Proof.
  intros (Hb & Hk & B & A0) Hcc Hp Hq Hc. pose proof (const_eq _ _ _ Hc) as HC. rewrite (spin_change _ _ _ Hc) in B. pose proof (spin_change _ _ _ Hc) as HM. unfold lowered. rewrite HM. change (-1 - -1)%Z with 0%Z in *. rewrite Z.add_0_r in *.
  rewrite HC by lia. cbn [scale_dnelec].
  pose proof (fun p q (Hp : (p < n)%nat) (Hq : (q < n)%nat) => C73_hh n _ _ psi' psi (spin_of (i_ket x)) 1 p q Hb Hk ltac:(lia) Hp Hq A0) as K. cbn [Nat.leb] in K. change (two_m [true; false] []) with 0%Z in K. rewrite Z.add_0_r in K. unfold mdown_hh in K. rewrite !Z.sub_simpl_r in K.
  pose proof (K p q Hp Hq B) as K0. pose proof (K q p Hq Hp B) as K1. clear K. cbv beta zeta in K0, K1. unfold spin_factor_component.
  replace (at_high (i_sbra x - 1) (i_sket x - 1) 0 (fun M' M => el_hh n psi' psi 1 p q M' M + pm c * el_hh n psi' psi 1 q p M' M)) with (at_high (i_sbra x - 1) (i_sket x - 1) 0 (el_hh n psi' psi 1 p q) + pm c * at_high (i_sbra x - 1) (i_sket x - 1) 0 (el_hh n psi' psi 1 q p)) by reflexivity.
  destruct (Z.eqb_spec (i_sbra x) (i_sket x)) as [E|E].
  - rewrite E in *. rewrite Z.sub_diag in K0, K1. cbn [negb orb] in K0, K1 |- *.
    assert (S1 : forall m, scale_hh (i_sket x) 1 (i_sket x) m = V 1) by (intros m; unfold scale_hh; rewrite Z.sub_diag; reflexivity). rewrite !S1 in *. exists 1. split; [reflexivity|].
    set (S := (i_sket x - 1)%Z) in *. assert (ES : i_sket x = (S + 1)%Z) by (unfold S; lia). set (M := spin_of (i_ket x)) in *. rewrite ES. replace (S + 1 =? 1)%Z with (S =? 0)%Z by (destruct (Z.eqb_spec S 0), (Z.eqb_spec (S + 1) 1); lia).
    destruct (Z.eqb_spec S 0) as [E0|E0].
    + rewrite E0 in *. assert (EM : M = 0%Z) by (destruct A0 as [? _]; lia). rewrite EM in *. cbn [tr_hh_0 Z.eqb lc fold_right fst snd nmul nadd V] in K0, K1. injection K0 as K0. injection K1 as K1.
      pose proof (singlet_hh n psi' psi p q Hb Hk Hp Hq) as X. destruct c as [|[|]]; [| |lia]; cbn [pm Nat.eqb]; lra.
    + rewrite half_ratio by (apply not_0_IZR; exact E0). pose proof (half_nz S E0) as NZ. set (s := half S) in *. set (m := half M) in *. unfold tr_hh_0 in K0, K1.
      destruct (Z.eqb_spec M S) as [EM|EM].
      * cbn [lc fold_right fst snd nmul nadd V] in K0, K1. injection K0 as K0. injection K1 as K1. rewrite <- K0, <- K1. assert (m = s) by (unfold m, s; rewrite EM; reflexivity).
        destruct c as [|[|]]; [| |lia]; cbn [pm Nat.eqb]; [ring|]. replace (m / s) with 1 by (rewrite H; field; exact NZ). ring.
      * fold s m in K0, K1. repeat rewrite div_ok in K0 by exact NZ; repeat rewrite div_ok in K1 by exact NZ. cbn [lc fold_right fst snd nmul nadd V] in K0, K1. injection K0 as K0. injection K1 as K1. rewrite <- K0, <- K1.
        destruct c as [|[|]]; [| |lia]; cbn [pm Nat.eqb]; field; exact NZ.
  - set (h0 := at_high _ _ 0 (el_hh n psi' psi 1 p q)) in *. set (h1 := at_high _ _ 0 (el_hh n psi' psi 1 q p)) in *. cbn [negb orb]. assert (N : (i_sbra x - i_sket x <> 0)%Z) by lia. assert (K0' : V h0 *! scale_hh (i_sbra x) 1 (i_sket x) (spin_of (i_ket x)) = Some (el_hh n psi' psi 1 p q (spin_of (i_ket x)) (spin_of (i_ket x)))) by (rewrite <- K0; destruct (i_sbra x - i_sket x)%Z; [contradiction|reflexivity|reflexivity]).
    assert (K1' : V h1 *! scale_hh (i_sbra x) 1 (i_sket x) (spin_of (i_ket x)) = Some (el_hh n psi' psi 1 q p (spin_of (i_ket x)) (spin_of (i_ket x)))) by (rewrite <- K1; destruct (i_sbra x - i_sket x)%Z; [contradiction|reflexivity|reflexivity]).
    apply V_inv in K0'. destruct K0' as (a & Ka & Kb). rewrite Ka in K1' |- *. cbn [nmul V] in K1'. injection K1' as K1'. exists a. split; [reflexivity|]. rewrite Kb, <- K1'. ring.
Qed.

(** ** annihilation of one electron with a density *)
Lemma half_sub S : S <> 1%Z -> 2 * half S - 1 <> 0.
Proof. intros N H. apply N. apply eq_IZR. unfold half in H. lra. Qed.
Lemma member_0 M : member 0 M -> M = 0%Z. Proof. intros [H _]. lia. Qed.
Lemma member_1 M : member 1 M -> M = 1%Z \/ M = (-1)%Z. Proof. intros [H [j Hj]]. lia. Qed.
Theorem C76_phh n x psi' psi op r p q : proper n x psi' psi -> (op < 2)%nat -> (r < n)%nat -> (p < n)%nat -> (q < n)%nat -> changes x (if dn op then 0 else -1) (if dn op then -1 else 0) ->
  lowered x 0 (two_m [dn op] []) (fun M' M => el_phh n psi' psi op 0 r p q M' M + el_phh n psi' psi op 1 r p q M' M).
Proof.
  intros (Hb & Hk & B & A0) Hop Hr Hp Hq Hc. pose proof (const_eq _ _ _ Hc) as HC. rewrite (spin_change _ _ _ Hc) in B. pose proof (spin_change _ _ _ Hc) as HM. unfold lowered. rewrite HM, comp0.
  assert (EQ : ((if dn op then 0 else -1) - (if dn op then -1 else 0) = two_m [dn op] [])%Z) by (destruct (dn op); reflexivity). rewrite EQ in *.
  assert (Q2 : forall k, two_m [dn k; dn op] [dn k] = two_m [dn op] []) by (intros k; destruct (dn k), (dn op); reflexivity).
  pose proof (fun k (Hkk : (k < 2)%nat) => C73_phh n _ _ psi' psi (spin_of (i_ket x)) op k r p q Hb Hk Hop Hkk Hr Hp Hq A0) as K.
  pose proof (K 0%nat ltac:(lia)) as K0. pose proof (K 1%nat ltac:(lia)) as K1. clear K. cbv zeta in K0, K1. rewrite Q2 in K0, K1. specialize (K0 B). specialize (K1 B). unfold mdown_phh in K0, K1. rewrite !Z.sub_simpl_r in K0, K1. cbv beta zeta in K0, K1.
  replace (at_high (i_sbra x - 1) (i_sket x - 1) (two_m [dn op] []) (fun M' M => el_phh n psi' psi op 0 r p q M' M + el_phh n psi' psi op 1 r p q M' M))
    with (at_high (i_sbra x - 1) (i_sket x - 1) (two_m [dn op] []) (el_phh n psi' psi op 0 r p q) + at_high (i_sbra x - 1) (i_sket x - 1) (two_m [dn op] []) (el_phh n psi' psi op 1 r p q)) by reflexivity.
  rewrite HC by (destruct (dn op); lia).
  assert (HS : scale_dnelec (if dn op then 0%Z else (-1)%Z, if dn op then (-1)%Z else 0%Z) (i_sbra x) (i_sket x) (spin_of (i_ket x)) = Ok (scale_h (i_sbra x) op (i_sket x) (spin_of (i_ket x)))) by (destruct op as [|[|]]; [| |lia]; reflexivity). rewrite HS. clear HS HC EQ Q2 HM Hc.
  set (h := fun k r p q => at_high (i_sbra x - 1) (i_sket x - 1) (two_m [dn op] []) (el_phh n psi' psi op k r p q)).
  change (at_high (i_sbra x - 1) (i_sket x - 1) (two_m [dn op] []) (el_phh n psi' psi op 0 r p q)) with (h 0%nat r p q). change (at_high (i_sbra x - 1) (i_sket x - 1) (two_m [dn op] []) (el_phh n psi' psi op 1 r p q)) with (h 1%nat r p q).
  set (S := (i_sket x - 1)%Z) in *. set (S' := (i_sbra x - 1)%Z) in *. replace (i_sbra x - i_sket x)%Z with (S' - S)%Z in K0, K1 by (unfold S, S'; lia). set (M := spin_of (i_ket x)) in *. set (sc := scale_h (i_sbra x) op (i_sket x) M) in *.
  set (g := fun k r p q => V (h k r p q) *! sc).
  change (fun k => V (at_high S' S (two_m [dn op] []) (el_phh n psi' psi op k r p q)) *! sc) with (fun k => g k r p q) in K0, K1.
  change (fun k => V (at_high S' S (two_m [dn op] []) (el_phh n psi' psi op k q p r)) *! sc) with (fun k => g k q p r) in K0, K1.
  change (V (at_high S' S (two_m [dn op] []) (el_phh n psi' psi op 0 r p q)) *! sc) with (g 0%nat r p q) in K0.
  change (V (at_high S' S (two_m [dn op] []) (el_phh n psi' psi op 1 r p q)) *! sc) with (g 1%nat r p q) in K1.
  set (e0 := el_phh n psi' psi op 0 r p q (M + two_m [dn op] [])%Z M) in *. set (e1 := el_phh n psi' psi op 1 r p q (M + two_m [dn op] [])%Z M) in *. clearbody e0 e1.
  assert (Cases : (g 0%nat r p q = Some e0 /\ g 1%nat r p q = Some e1) \/ exists a, sc = V a /\ e0 + e1 = a * (h 0%nat r p q + h 1%nat r p q)).
  { destruct (Z.eq_dec (S' - S) (-1)) as [E|E]; [|destruct (Z.eq_dec (S' - S) 1) as [E2|E2]].
    - rewrite E in K0, K1. destruct op as [|[|]]; [| |lia]; cbn [dn Nat.eqb negb] in B.
      + unfold tr_phh_0 in K0, K1. destruct (Z.eqb_spec M S) as [EM|EM].
        * left. cbn [lc fold_right fst snd] in K0, K1. subst g. cbv beta in *. destruct sc as [a|]; cbn [nmul nadd V] in K0, K1; [|discriminate K0]. cbn [nmul V]. injection K0 as K0. injection K1 as K1. split; f_equal; lra.
        * right. assert (NZ : 2 * half S - 1 <> 0). { apply half_sub. intros E1. rewrite E1 in *. assert (S' = 0%Z) by lia. rewrite H in B. apply member_0 in B. cbv [two_m fold_right] in B. apply member_1 in A0. lia. }
          repeat rewrite div_ok in K0 by exact NZ; repeat rewrite div_ok in K1 by exact NZ. cbn [lc fold_right fst snd] in K0, K1. subst g. cbv beta in *. destruct sc as [a|]; cbn [nmul nadd V] in K0, K1; [|discriminate K0]. exists a. split; [reflexivity|]. injection K0 as K0. injection K1 as K1. rewrite <- K0, <- K1. field. exact NZ.
      + unfold tr_phh_1 in K0, K1. destruct (Z.eqb_spec M (S - 2)) as [EM|EM].
        * left. cbn [lc fold_right fst snd] in K0, K1. subst g. cbv beta in *. destruct sc as [a|]; cbn [nmul nadd V] in K0, K1; [|discriminate K0]. cbn [nmul V]. injection K0 as K0. injection K1 as K1. split; f_equal; lra.
        * right. assert (NZ : 2 * half S - 1 <> 0). { apply half_sub. intros E1. rewrite E1 in *. assert (S' = 0%Z) by lia. rewrite H in B. apply member_0 in B. cbv [two_m fold_right] in B. apply member_1 in A0. lia. }
          repeat rewrite div_ok in K0 by exact NZ; repeat rewrite div_ok in K1 by exact NZ. cbn [lc fold_right fst snd] in K0, K1. subst g. cbv beta in *. destruct sc as [a|]; cbn [nmul nadd V] in K0, K1; [|discriminate K0]. exists a. split; [reflexivity|]. injection K0 as K0. injection K1 as K1. rewrite <- K0, <- K1. field. exact NZ.
    - rewrite E2 in K0, K1. destruct op as [|[|]]; [| |lia]; cbn [dn Nat.eqb negb] in B.
      + unfold tr_phh_2 in K0, K1. destruct (Z.eqb_spec M S) as [EM|EM].
        * left. cbn [lc fold_right fst snd] in K0, K1. subst g. cbv beta in *. destruct sc as [a|]; cbn [nmul nadd V] in K0, K1; [|discriminate K0]. cbn [nmul V]. injection K0 as K0. injection K1 as K1. split; f_equal; lra.
        * right. assert (NZ : half S <> 0). { apply half_nz. intros E1. rewrite E1 in *. apply member_0 in A0. lia. }
          repeat rewrite div_ok in K0 by exact NZ; repeat rewrite div_ok in K1 by exact NZ. cbn [lc fold_right fst snd] in K0, K1. subst g. cbv beta in *. destruct sc as [a|]; cbn [nmul nadd V] in K0, K1; [|discriminate K0]. exists a. split; [reflexivity|]. injection K0 as K0. injection K1 as K1. rewrite <- K0, <- K1. field. exact NZ.
      + unfold tr_phh_3 in K0, K1. destruct (Z.eqb_spec M S) as [EM|EM].
        * left. cbn [lc fold_right fst snd] in K0, K1. subst g. cbv beta in *. destruct sc as [a|]; cbn [nmul nadd V] in K0, K1; [|discriminate K0]. cbn [nmul V]. injection K0 as K0. injection K1 as K1. split; f_equal; lra.
        * right. assert (NZ : half S <> 0). { apply half_nz. intros E1. rewrite E1 in *. apply member_0 in A0. lia. }
          repeat rewrite div_ok in K0 by exact NZ; repeat rewrite div_ok in K1 by exact NZ. cbn [lc fold_right fst snd] in K0, K1. subst g. cbv beta in *. destruct sc as [a|]; cbn [nmul nadd V] in K0, K1; [|discriminate K0]. exists a. split; [reflexivity|]. injection K0 as K0. injection K1 as K1. rewrite <- K0, <- K1. field. exact NZ.
    - left. set (D := (S' - S)%Z) in *. clearbody D. destruct D as [|[z|z|]|[z|z|]]; try contradiction; split; assumption. }
  destruct Cases as [[G0 G1]|(a & Ha & He)].
  - subst g. cbv beta in *. apply V_inv in G0. destruct G0 as (a & Ka & Kb). rewrite Ka in *. cbn [nmul V] in G1. injection G1 as G1. exists a. split; [reflexivity|]. rewrite Kb, <- G1. ring.
  - exists a. split; [rewrite Ha; reflexivity|]. rewrite He. ring.
Qed.

(** ** two electrons annihilated and created again, all spins *)
Definition all_dm2 (n : nat) (psi' psi : Z -> vec Rs) (p q r s : nat) (M' M : Z) : R :=
  el_dm2 n psi' psi 0 p q r s M' M + el_dm2 n psi' psi 1 p q r s M' M + el_dm2 n psi' psi 2 p q r s M' M + el_dm2 n psi' psi 3 p q r s M' M.
Lemma dm2_scalar n S' S psi' psi p q r s : multiplet n S' psi' -> multiplet n S psi -> (p < n)%nat -> (q < n)%nat -> (r < n)%nat -> (s < n)%nat ->
  forall M' M, member S' M' -> member S M -> up S' M' * all_dm2 n psi' psi p q r s (M' + 2)%Z M = down S M * all_dm2 n psi' psi p q r s M' (M - 2)%Z.
Proof.
  intros Hb Hk Hp Hq Hr Hs M' M HM' HM.
  pose proof (fun b b' => comm_M n S' S psi' psi Hb Hk [(true, b, p); (true, b', r); (false, b', s); (false, b, q)] ltac:(repeat constructor; assumption) M' M HM' HM) as K.
  pose proof (K false false) as K0. pose proof (K false true) as K1. pose proof (K true false) as K2. pose proof (K true true) as K3. clear K. cbn [der dM1 map app fst snd comb fold_right] in K0, K1, K2, K3. unfold all_dm2.
  repeat match goal with |- context [el_dm2 ?n ?a ?b ?k ?p ?q ?r ?s ?x ?y] => change (el_dm2 n a b k p q r s x y) with (E n a b [(true, dn (k / 2), p); (true, dn (k mod 2), r); (false, dn (k mod 2), s); (false, dn (k / 2), q)] x y) end.
  cbn [dn Nat.div Nat.modulo Nat.divmod fst snd Nat.eqb negb Nat.sub]. lra.
Qed.
Theorem C76_dm2 n x psi' psi p q r s : proper n x psi' psi -> (p < n)%nat -> (q < n)%nat -> (r < n)%nat -> (s < n)%nat -> changes x 0 0 -> lowered x 0 0 (all_dm2 n psi' psi p q r s).
Proof.
  intros HP Hp Hq Hr Hs Hc. destruct (C76_dm1 n x psi' psi 0 p q HP ltac:(lia) Hp Hq Hc) as (a & Ha & _). exists a. split; [exact Ha|]. rewrite comp0.
  destruct HP as (Hb & Hk & B & A0). pose proof (spin_change _ _ _ Hc) as HM. rewrite HM in *. change (0 - 0)%Z with 0%Z in *. rewrite Z.add_0_r in *.
  assert (HH : high_bra (i_sbra x - 1 + 1) (i_sket x - 1 + 1) 0 = high_ket (i_sbra x - 1 + 1) (i_sket x - 1 + 1) 0) by (unfold high_bra; lia). unfold at_high. rewrite HH.
  set (H := high_ket (i_sbra x - 1 + 1) (i_sket x - 1 + 1) 0). assert (M1 : member (i_sbra x - 1) H /\ member (i_sket x - 1) H).
  { unfold H, high_ket. destruct A0 as [? [j ?]], B as [? [k ?]]. destruct (Z.min_spec (i_sket x - 1 + 1 - 1) (i_sbra x - 1 + 1 - 1 - 0)) as [[? ->]|[? ->]]; split; split; try lia; [exists (k - j)%Z|exists 0%Z|exists 0%Z|exists (j - k)%Z]; lia. }
  destruct (scalar_const (i_sbra x - 1) (i_sket x - 1) (all_dm2 n psi' psi p q r s) (spin_of (i_ket x)) H (dm2_scalar n _ _ psi' psi p q r s Hb Hk Hp Hq Hr Hs) B A0 (proj1 M1) (proj2 M1)) as [E1 E2].
  destruct (Z.eq_dec (i_sbra x) (i_sket x)) as [E|E].
  - rewrite (const_eq _ _ _ Hc) in Ha by lia. cbn [scale_dnelec] in Ha. assert (S1 : forall m, scale_dm (i_sbra x) (i_sket x) m = V 1) by (intros m; rewrite E; unfold scale_dm; rewrite Z.ltb_irrefl, Z.sub_diag; reflexivity). rewrite S1 in Ha. injection Ha as <-. rewrite E1. ring.
  - rewrite <- E1, E2 by lia. ring.
Qed.

(** ** bra and ket exchanged: creation of electrons *)
Theorem C76_adjoint x comp Q f : lowered x comp Q f -> comp = 0%nat \/ spin_of (i_bra x) = spin_of (i_ket x) -> lowered (swap x) comp (- Q) (fun M' M => f M M').
Proof.
  intros (a & Ha & Hf) Hs. exists a. split; [rewrite constant_swap; exact Ha|]. cbn [swap i_bra i_ket i_sbra i_sket]. rewrite Hf. f_equal.
  - f_equal. unfold spin_factor_component. cbn [swap i_bra i_ket i_sbra i_sket]. rewrite (Z.eqb_sym (i_sket x) (i_sbra x)). destruct (Z.eqb_spec (i_sbra x) (i_sket x)) as [E|E]; cbn [negb orb]; [|reflexivity].
    destruct Hs as [->| ->]; [reflexivity|]. rewrite E. reflexivity.
  - unfold at_high. f_equal; unfold high_bra, high_ket; lia.
Qed.

(** ** terms of several fragments *)
(** a component of a term: comp (none for a term without components) and a sum of numbers times one element of each fragment *)
Record component := mkComponent { c_comp : list nat; c_terms : list (R * list (Z * (Z -> Z -> R))) }.
Definition prodR (l : list R) : R := fold_right Rmult 1 l.
Definition sumR (l : list R) : R := fold_right Rplus 0 l.
(** its value when the fragments are at high m, and when they are as [ints] has them *)
Definition value_high (ints : list info) (c : component) : R :=
  sumR (map (fun t => fst t * prodR (map (fun p => at_high (i_sbra (fst p) - 1) (i_sket (fst p) - 1) (fst (snd p)) (snd (snd p))) (combine ints (snd t)))) (c_terms c)).
Definition value_at (ints : list info) (c : component) : R :=
  sumR (map (fun t => fst t * prodR (map (fun p => snd (snd p) (spin_of (i_bra (fst p))) (spin_of (i_ket (fst p)))) (combine ints (snd t)))) (c_terms c)).
Definition fits (ints : list info) (c : component) : Prop :=
  (c_comp c = [] \/ length (c_comp c) = length ints) /\ c_terms c <> [] /\ forall w ops, In (w, ops) (c_terms c) -> length ops = length ints /\
    forall j, (j < length ints)%nat -> lowered (nth j ints (mkInfo (0, 0)%nat (0, 0)%nat 1 1)) (nth j (c_comp c) 0%nat) (fst (nth j ops (0%Z, fun _ _ => 0))) (snd (nth j ops (0%Z, fun _ _ => 0))).

Lemma fold_prod {A} (F : A -> R) l : forall acc, fold_left (fun f p => f * F p) l acc = acc * prodR (map F l).
Proof. induction l as [|y l IH]; intros acc; cbn [fold_left map prodR fold_right]; [ring|]. rewrite IH. cbn [prodR]. unfold prodR. ring. Qed.
Lemma fold_nmul l : forall acc, fold_left nmul (map V l) (V acc) = V (acc * prodR l).
Proof. induction l as [|y l IH]; intros acc; cbn [fold_left map prodR fold_right]; [f_equal; ring|]. cbn [nmul V]. change (Some (acc * y)) with (V (acc * y)). rewrite IH. unfold prodR. f_equal. ring. Qed.
Lemma term_lowered : forall ints comp ops, comp = [] \/ length comp = length ints -> length ops = length ints ->
  (forall j, (j < length ints)%nat -> lowered (nth j ints (mkInfo (0, 0)%nat (0, 0)%nat 1 1)) (nth j comp 0%nat) (fst (nth j ops (0%Z, fun _ _ => 0))) (snd (nth j ops (0%Z, fun _ _ => 0)))) ->
  exists cs, mapM spin_factor_constant ints = Ok (map V cs) /\
    prodR (map (fun p => snd (snd p) (spin_of (i_bra (fst p))) (spin_of (i_ket (fst p)))) (combine ints ops)) =
    prodR cs * prodR (map (fun p => spin_factor_component (fst p) (snd p)) (combine ints comp)) * prodR (map (fun p => at_high (i_sbra (fst p) - 1) (i_sket (fst p) - 1) (fst (snd p)) (snd (snd p))) (combine ints ops)).
Proof.
  induction ints as [|x ints IH]; intros comp ops Hc Ho HL.
  - exists []. cbn. split; [reflexivity|ring].
  - destruct ops as [|o ops]; [discriminate|]. cbn [length] in Ho. pose proof (HL 0%nat ltac:(cbn; lia)) as H0. cbn [nth] in H0. destruct H0 as (a & Ha & Hf).
    destruct (IH (tl comp) ops) as (cs & Hm & Hp).
    + destruct comp; [left; reflexivity|]. destruct Hc as [?|Hc]; [discriminate|right]. cbn [length tl] in *. lia.
    + lia.
    + intros j Hj. specialize (HL (S j) ltac:(cbn [length]; lia)). cbn [nth] in HL. destruct comp as [|c comp]; cbn [tl nth] in *; [destruct j; exact HL|exact HL].
    + exists (a :: cs). cbn [mapM bind map]. rewrite Ha. cbn [bind]. rewrite Hm. cbn [bind]. split; [reflexivity|].
      assert (EC : prodR (map (fun p => spin_factor_component (fst p) (snd p)) (combine (x :: ints) comp)) = spin_factor_component x (nth 0 comp 0%nat) * prodR (map (fun p => spin_factor_component (fst p) (snd p)) (combine ints (tl comp)))).
      { destruct comp as [|c comp]; cbn [combine map prodR fold_right nth tl]; [rewrite comp0; destruct ints; cbn; ring|reflexivity]. }
      rewrite EC. cbn [combine map fst snd]. unfold prodR in *. cbn [fold_right]. rewrite Hp, Hf. destruct comp; cbn [nth]; ring.
Qed.
Theorem C76_term ints cs : cs <> [] -> Forall (fits ints) cs ->
  reduce_spin ints (map (fun c => (value_high ints c, c_comp c)) cs) = Ok (V (sumR (map (value_at ints) cs))).
Proof.
  intros NE HF. assert (HA : exists as_, mapM spin_factor_constant ints = Ok (map V as_)).
  { destruct cs as [|c cs]; [contradiction|]. inversion HF as [|? ? [Hc [Ht HL]] _]; subst. destruct (c_terms c) as [|[w ops] ts]; [contradiction|]. destruct (HL w ops (or_introl eq_refl)) as [Ho HJ]. destruct (term_lowered ints (c_comp c) ops Hc Ho HJ) as (as_ & Hm & _). exists as_. exact Hm. }
  destruct HA as [as_ Hm]. unfold reduce_spin. rewrite Hm. cbn [bind]. rewrite fold_nmul. cbn [nmul V]. f_equal. unfold V. f_equal. rewrite Rmult_1_l.
  assert (HC : forall c, fits ints c -> value_at ints c = prodR as_ * prodR (map (fun p => spin_factor_component (fst p) (snd p)) (combine ints (c_comp c))) * value_high ints c).
  { intros c [Hc [_ HL]]. unfold value_at, value_high. set (T := c_terms c) in *. clearbody T. induction T as [|[w ops] ts IH]; [cbn; ring|]. cbn [map sumR fold_right fst snd]. destruct (HL w ops (or_introl eq_refl)) as [Ho HJ]. destruct (term_lowered ints (c_comp c) ops Hc Ho HJ) as (as2 & Hm2 & Hp).
    assert (as2 = as_). { rewrite Hm in Hm2. injection Hm2 as Hm2. clear -Hm2. revert as2 Hm2. induction as_ as [|y l IHl]; intros [|z l2] Hm2; cbn [map] in Hm2; [reflexivity|discriminate|discriminate|]. injection Hm2 as -> Hm2. f_equal. apply IHl. exact Hm2. }
    subst as2. rewrite Hp. pose proof (IH (fun w' ops' Hin => HL w' ops' (or_intror Hin))) as IH'. unfold sumR in IH' |- *. rewrite IH'. ring. }
  clear NE. induction HF as [|c cs Hc HF IH]; [cbn; ring|]. cbn [map fold_right sumR fst snd]. rewrite Rmult_plus_distr_r. rewrite IH. rewrite fold_prod, (HC c Hc). unfold sumR. cbn [fst snd]. ring.
Qed.
Print Assumptions C76_h.
Print Assumptions C76_hh.
Print Assumptions C76_hh_mixed.
Print Assumptions C76_sm.
Print Assumptions C76_phh.
Print Assumptions C76_dm1.
Print Assumptions C76_dm2.
Print Assumptions C76_adjoint.
Print Assumptions C76_term.
