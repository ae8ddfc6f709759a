(** C76: terms of the Hamiltonian made at high m and lowered are those of the members of the multiplets. *)
From Coq Require Import List Bool Arith NArith ZArith Reals Lia Lra.
From Verif Require Import Base BaseFacts Star FockSpec FockFacts FockOps LsisUpdModel SmultSpec SmultComm SmultModel PropSmult SpfacModel SpfacFacts PropSpfac.
Import ListNotations.
Local Open Scope R_scope.

Lemma sm_ext n f g : (forall p, (p < n)%nat -> f p = g p) -> sm n f = sm n g.
Proof. intros H. unfold sm. f_equal. apply map_ext_in. intros p Hp. apply in_seq in Hp. apply H. lia. Qed.
Lemma sm_mul n f c : c * sm n f = sm n (fun p => c * f p).
Proof. unfold sm. induction (seq 0 n) as [|y l IH]; cbn [map fold_right]; [ring|]. rewrite <- IH. ring. Qed.
Lemma sm_plus n f g : sm n (fun p => f p + g p) = sm n f + sm n g.
Proof. unfold sm. induction (seq 0 n) as [|y l IH]; cbn [map fold_right]; [ring|]. rewrite IH. ring. Qed.

(** ** the tables of a fragment, of the members of the multiplets and of the pair at high m *)
Definition here (x : info) (f : Z -> Z -> R) : R := f (spin_of (i_bra x)) (spin_of (i_ket x)).
Definition high (x : info) (Q : Z) (f : Z -> Z -> R) : R := at_high (i_sbra x - 1) (i_sket x - 1) Q f.
Lemma lowered_at x comp Q f a : lowered x comp Q f -> spin_factor_constant x = Ok (V a) -> here x f = a * spin_factor_component x comp * high x Q f.
Proof. intros (a' & Ha & Hf) Ha2. rewrite Ha in Ha2. injection Ha2 as ->. exact Hf. Qed.
Lemma reduce1 x a v : spin_factor_constant x = Ok (V a) -> reduce_spin [x] [(v, [])] = Ok (V (a * v)).
Proof. intros Ha. unfold reduce_spin. cbn [mapM bind fold_right fold_left combine fst snd]. rewrite Ha. cbn [bind fold_left nmul V]. f_equal. unfold V. f_equal. ring. Qed.
Lemma reduce2 x y a b v : spin_factor_constant x = Ok (V a) -> spin_factor_constant y = Ok (V b) -> reduce_spin [x; y] [(v, [])] = Ok (V (a * b * v)).
Proof. intros Ha Hb. unfold reduce_spin. cbn [mapM bind fold_right fold_left combine fst snd]. rewrite Ha, Hb. cbn [bind fold_left nmul V]. f_equal. unfold V. f_equal. ring. Qed.
Lemma reduce22 x y a b v w : spin_factor_constant x = Ok (V a) -> spin_factor_constant y = Ok (V b) ->
  reduce_spin [x; y] [(v, [0; 0]%nat); (w, [1; 1]%nat)] = Ok (V (a * b * (v + spin_factor_component x 1 * spin_factor_component y 1 * w))).
Proof. intros Ha Hb. unfold reduce_spin. cbn [mapM bind fold_right fold_left combine fst snd]. rewrite Ha, Hb, !comp0. cbn [bind fold_left nmul V]. f_equal. unfold V. f_equal. ring. Qed.

(** ** densities of one fragment; h1 does not depend on spin *)
Theorem C76_1d n x psi' psi h1 h2 : (0 < n)%nat -> proper n x psi' psi -> changes x 0 0 -> (forall p q, h1 0%nat p q = h1 1%nat p q) ->
  reduce_spin [x] (term_1d n h1 h2 (fun k p q => high x 0 (el_dm1 n psi' psi k p q)) (fun k p q r s => high x 0 (el_dm2 n psi' psi k p q r s))) =
  Ok (V (reduce_spin_none (term_1d n h1 h2 (fun k p q => here x (el_dm1 n psi' psi k p q)) (fun k p q r s => here x (el_dm2 n psi' psi k p q r s))))).
Proof.
  intros Hn HP Hc Hh. destruct (C76_dm1 n x psi' psi 0 0 0 HP ltac:(lia) Hn Hn Hc) as (a & Ha & _). cbv zeta in Ha. unfold term_1d. rewrite (reduce1 x a _ Ha). unfold reduce_spin_none. cbn [map fst fold_right]. f_equal. unfold V. f_equal. rewrite Rplus_0_r, Rmult_plus_distr_l. f_equal.
  - cbn [sm seq map fold_right]. rewrite !Rplus_0_r, <- !sm_plus, sm_mul. apply sm_ext. intros p Hp. rewrite <- !sm_plus, sm_mul. apply sm_ext. intros q Hq. rewrite <- Hh.
    pose proof (lowered_at _ _ _ _ _ (C76_dm1 n x psi' psi 0 q p HP ltac:(lia) Hq Hp Hc) Ha) as K. rewrite comp0 in K. unfold here, high in *. unfold at_high in *. cbn [pm Nat.eqb] in K.
    transitivity ((el_dm1 n psi' psi 0 q p (spin_of (i_bra x)) (spin_of (i_ket x)) + 1 * el_dm1 n psi' psi 1 q p (spin_of (i_bra x)) (spin_of (i_ket x))) * h1 0%nat p q); [rewrite K|]; ring.
  - rewrite <- Rmult_assoc. f_equal. rewrite sm_mul. apply sm_ext. intros p Hp. rewrite sm_mul. apply sm_ext. intros q Hq. rewrite sm_mul. apply sm_ext. intros r Hr. rewrite sm_mul. apply sm_ext. intros s Hs.
    pose proof (lowered_at _ _ _ _ _ (C76_dm2 n x psi' psi q p s r HP Hq Hp Hs Hr Hc) Ha) as K. rewrite comp0 in K. rewrite <- Rmult_assoc. f_equal. cbn [sm seq map fold_right]. unfold here, high, all_dm2, at_high in *. rewrite !Rplus_0_r. rewrite <- !Rplus_assoc. rewrite K. ring.
Qed.

(** ** densities of two fragments *)
Lemma bil_scale ni nj di di' dj dj' (g : nat -> nat -> nat -> nat -> R) ci cj : (forall p q, (p < ni)%nat -> (q < ni)%nat -> di p q = ci * di' p q) -> (forall p q, (p < nj)%nat -> (q < nj)%nat -> dj p q = cj * dj' p q) ->
  sm nj (fun r => sm nj (fun u => dj r u * sm ni (fun p => sm ni (fun q => di p q * g r u p q)))) = ci * cj * sm nj (fun r => sm nj (fun u => dj' r u * sm ni (fun p => sm ni (fun q => di' p q * g r u p q)))).
Proof.
  intros Hi Hj. rewrite sm_mul. apply sm_ext. intros r Hr. rewrite sm_mul. apply sm_ext. intros u Hu. rewrite (Hj r u Hr Hu).
  assert (E : sm ni (fun p => sm ni (fun q => di p q * g r u p q)) = ci * sm ni (fun p => sm ni (fun q => di' p q * g r u p q))).
  { rewrite sm_mul. apply sm_ext. intros p Hp. rewrite sm_mul. apply sm_ext. intros q Hq. rewrite (Hi p q Hp Hq). ring. }
  rewrite E. ring.
Qed.
Lemma cs_lowered n x psi' psi a c p q : proper n x psi' psi -> changes x 0 0 -> (c < 2)%nat -> (p < n)%nat -> (q < n)%nat -> spin_factor_constant x = Ok (V a) ->
  cs (fun k p q => here x (el_dm1 n psi' psi k p q)) c p q = a * spin_factor_component x c * cs (fun k p q => high x 0 (el_dm1 n psi' psi k p q)) c p q.
Proof.
  intros HP Hc Hcc Hp Hq Ha. pose proof (lowered_at _ _ _ _ _ (C76_dm1 n x psi' psi c p q HP Hcc Hp Hq Hc) Ha) as K. unfold here, high, at_high in *. destruct c as [|[|]]; [| |lia]; cbn [pm Nat.eqb cs] in *.
  - rewrite Rmult_1_l in K. rewrite K. ring.
  - transitivity (el_dm1 n psi' psi 0 p q (spin_of (i_bra x)) (spin_of (i_ket x)) + -1 * el_dm1 n psi' psi 1 p q (spin_of (i_bra x)) (spin_of (i_ket x))); [ring|]. rewrite K. ring.
Qed.
Theorem C76_2d ni nj xi xj psi_i' psi_i psi_j' psi_j h_jjii h_jiij : (0 < ni)%nat -> (0 < nj)%nat -> proper ni xi psi_i' psi_i -> proper nj xj psi_j' psi_j -> changes xi 0 0 -> changes xj 0 0 ->
  reduce_spin [xi; xj] (term_2d ni nj h_jjii h_jiij (fun k p q => high xi 0 (el_dm1 ni psi_i' psi_i k p q)) (fun k p q => high xj 0 (el_dm1 nj psi_j' psi_j k p q))) =
  Ok (V (reduce_spin_none (term_2d ni nj h_jjii h_jiij (fun k p q => here xi (el_dm1 ni psi_i' psi_i k p q)) (fun k p q => here xj (el_dm1 nj psi_j' psi_j k p q))))).
Proof.
  intros Hi Hj Pi Pj Ci Cj. destruct (C76_dm1 ni xi _ _ 0 0 0 Pi ltac:(lia) Hi Hi Ci) as (a & Ha & _). destruct (C76_dm1 nj xj _ _ 0 0 0 Pj ltac:(lia) Hj Hj Cj) as (b & Hb & _).
  unfold term_2d. cbv zeta. rewrite (reduce22 xi xj a b _ _ Ha Hb). unfold reduce_spin_none. cbn [map fst fold_right]. f_equal. unfold V. f_equal.
  pose proof (fun c (Hc : (c < 2)%nat) g => bil_scale ni nj _ _ _ _ g _ _ (fun p q Hp Hq => cs_lowered ni xi psi_i' psi_i a c p q Pi Ci Hc Hp Hq Ha) (fun p q Hp Hq => cs_lowered nj xj psi_j' psi_j b c p q Pj Cj Hc Hp Hq Hb)) as K.
  pose proof (K 0%nat ltac:(lia) (fun r u p q => h_jjii u r q p)) as K1. pose proof (K 0%nat ltac:(lia) (fun r u p q => h_jiij u p q r / 2)) as K2. pose proof (K 1%nat ltac:(lia) (fun r u p q => h_jiij u p q r / 2)) as K3. cbv beta in K1, K2, K3.
  rewrite K1, K2, K3, !comp0. ring.
Qed.

(** ** an electron goes from fragment j to fragment i *)
Lemma swap_swap x : swap (swap x) = x. Proof. destruct x; reflexivity. Qed.
Lemma created n x psi' psi op p : proper n x psi' psi -> (op < 2)%nat -> (p < n)%nat -> changes x (if dn op then 0 else 1) (if dn op then 1 else 0) ->
  lowered x 0 (- two_m [dn op] []) (fun M' M => el_h n psi psi' op p M M').
Proof.
  intros (Hb & Hk & B & A0) Hop Hp [C1 C2]. rewrite <- (swap_swap x) at 1. apply C76_adjoint; [|left; reflexivity]. apply C76_h; [split; [exact Hk|split; [exact Hb|split; [exact A0|exact B]]]|exact Hop|exact Hp|].
  split; cbn [swap i_bra i_ket]; destruct (dn op); lia.
Qed.
Lemma created_d n x psi' psi op r p q : proper n x psi' psi -> (op < 2)%nat -> (r < n)%nat -> (p < n)%nat -> (q < n)%nat -> changes x (if dn op then 0 else 1) (if dn op then 1 else 0) ->
  lowered x 0 (- two_m [dn op] []) (fun M' M => el_phh n psi psi' op 0 r p q M M' + el_phh n psi psi' op 1 r p q M M').
Proof.
  intros (Hb & Hk & B & A0) Hop Hr Hp Hq [C1 C2]. rewrite <- (swap_swap x) at 1. apply (C76_adjoint (swap x) 0 _ (fun M' M => el_phh n psi psi' op 0 r p q M' M + el_phh n psi psi' op 1 r p q M' M)); [|left; reflexivity].
  apply C76_phh; [split; [exact Hk|split; [exact Hb|split; [exact A0|exact B]]]|exact Hop|exact Hr|exact Hp|exact Hq|]. split; cbn [swap i_bra i_ket]; destruct (dn op); lia.
Qed.
Theorem C76_1c ni nj s1 fac xi xj psi_i' psi_i psi_j' psi_j h1_ji h_jiii h_jjji : (0 < ni)%nat -> (0 < nj)%nat -> (s1 < 2)%nat -> proper ni xi psi_i' psi_i -> proper nj xj psi_j' psi_j ->
  changes xi (if dn s1 then 0 else 1) (if dn s1 then 1 else 0) -> changes xj (if dn s1 then 0 else -1) (if dn s1 then -1 else 0) ->
  let Q := two_m [dn s1] [] in
  let term at_i at_j := term_1c ni nj fac h1_ji h_jiii h_jjji
    (fun p => at_i (fun M' M => el_h ni psi_i psi_i' s1 p M M')) (fun k a b c => at_i (fun M' M => el_phh ni psi_i psi_i' s1 k a c b M M'))
    (fun p => at_j (el_h nj psi_j' psi_j s1 p)) (fun k a b c => at_j (el_phh nj psi_j' psi_j s1 k c a b)) in
  reduce_spin [xi; xj] (term (high xi (- Q)) (high xj Q)) = Ok (V (reduce_spin_none (term (here xi) (here xj)))).
Proof.
  intros Hi Hj Hs Pi Pj Ci Cj Q term. unfold term. clear term. destruct (created ni xi psi_i' psi_i s1 0 Pi Hs Hi Ci) as (a & Ha & _). destruct (C76_h nj xj _ _ s1 0 Pj Hs Hj Cj) as (b & Hb & _).
  unfold term_1c. cbv zeta. rewrite (reduce2 xi xj a b _ Ha Hb). unfold reduce_spin_none. cbn [map fst fold_right]. f_equal. unfold V. f_equal. rewrite Rplus_0_r, <- Rmult_assoc. f_equal. rewrite !Rmult_plus_distr_l.
  assert (P1 : forall p, (p < ni)%nat -> here xi (fun M' M => el_h ni psi_i psi_i' s1 p M M') = a * high xi (- Q) (fun M' M => el_h ni psi_i psi_i' s1 p M M')).
  { intros p Hp. rewrite (lowered_at _ _ _ _ _ (created ni xi psi_i' psi_i s1 p Pi Hs Hp Ci) Ha), comp0. unfold Q. ring. }
  assert (H1 : forall p, (p < nj)%nat -> here xj (el_h nj psi_j' psi_j s1 p) = b * high xj Q (el_h nj psi_j' psi_j s1 p)).
  { intros p Hp. rewrite (lowered_at _ _ _ _ _ (C76_h nj xj psi_j' psi_j s1 p Pj Hs Hp Cj) Hb), comp0. unfold Q. ring. }
  assert (P3 : forall r p q, (r < ni)%nat -> (p < ni)%nat -> (q < ni)%nat -> sm 2 (fun k => here xi (fun M' M => el_phh ni psi_i psi_i' s1 k r p q M M')) = a * sm 2 (fun k => high xi (- Q) (fun M' M => el_phh ni psi_i psi_i' s1 k r p q M M'))).
  { intros r p q Hr Hp Hq. pose proof (lowered_at _ _ _ _ _ (created_d ni xi psi_i' psi_i s1 r p q Pi Hs Hr Hp Hq Ci) Ha) as K. rewrite comp0 in K. cbn [sm seq map fold_right]. unfold here, high, at_high in *. rewrite !Rplus_0_r. rewrite K. unfold Q. ring. }
  assert (H3 : forall r p q, (r < nj)%nat -> (p < nj)%nat -> (q < nj)%nat -> sm 2 (fun k => here xj (el_phh nj psi_j' psi_j s1 k r p q)) = b * sm 2 (fun k => high xj Q (el_phh nj psi_j' psi_j s1 k r p q))).
  { intros r p q Hr Hp Hq. pose proof (lowered_at _ _ _ _ _ (C76_phh nj xj psi_j' psi_j s1 r p q Pj Hs Hr Hp Hq Cj) Hb) as K. rewrite comp0 in K. cbn [sm seq map fold_right]. unfold here, high, at_high in *. rewrite !Rplus_0_r. rewrite K. unfold Q. ring. }
  f_equal; [f_equal|].
  - rewrite sm_mul. apply sm_ext. intros w Hw. rewrite (H1 w Hw).
    assert (E : sm ni (fun v => here xi (fun M' M => el_h ni psi_i psi_i' s1 v M M') * h1_ji w v) = a * sm ni (fun v => high xi (- Q) (fun M' M => el_h ni psi_i psi_i' s1 v M M') * h1_ji w v)) by (rewrite sm_mul; apply sm_ext; intros v Hv; rewrite (P1 v Hv); ring).
    rewrite E. ring.
  - rewrite sm_mul. apply sm_ext. intros w Hw. rewrite (H1 w Hw).
    match goal with |- _ = _ * ?r => assert (E : r = a * sm ni (fun x => sm ni (fun y => sm ni (fun c => sm 2 (fun k => high xi (- Q) (fun M' M => el_phh ni psi_i psi_i' s1 k x c y M M')) * h_jiii w x c y)))) end.
    { rewrite sm_mul. apply sm_ext. intros x Hx. rewrite sm_mul. apply sm_ext. intros y Hy. rewrite sm_mul. apply sm_ext. intros c Hc. rewrite (P3 x c y Hx Hc Hy). ring. }
    rewrite E. ring.
  - rewrite sm_mul. apply sm_ext. intros x Hx. rewrite sm_mul. apply sm_ext. intros y Hy. rewrite sm_mul. apply sm_ext. intros c Hc. rewrite (H3 c x y Hc Hx Hy).
    assert (E : sm ni (fun v => here xi (fun M' M => el_h ni psi_i psi_i' s1 v M M') * h_jjji y x c v) = a * sm ni (fun v => high xi (- Q) (fun M' M => el_h ni psi_i psi_i' s1 v M M') * h_jjji y x c v)) by (rewrite sm_mul; apply sm_ext; intros v Hv; rewrite (P1 v Hv); ring).
    rewrite E. ring.
Qed.

(** ** two electrons of different spin go from fragment i to fragment a *)
Lemma sm_comm n m f : sm n (fun p => sm m (fun q => f p q)) = sm m (fun q => sm n (fun p => f p q)).
Proof.
  unfold sm. induction (seq 0 n) as [|y l IH]; cbn [map fold_right].
  - induction (seq 0 m) as [|z k IH]; cbn [map fold_right]; [reflexivity|]. rewrite <- IH. ring.
  - rewrite IH. pose proof (sm_plus m (f y) (fun q => fold_right Rplus 0 (map (fun p => f p q) l))) as P. unfold sm in P. symmetry. exact P.
Qed.
Lemma symm n T F e : e * e = 1 -> (forall w x, (w < n)%nat -> (x < n)%nat -> F x w = e * F w x) -> sm n (fun w => sm n (fun x => T w x * F w x)) = 1 / 2 * sm n (fun w => sm n (fun x => (T w x + e * T x w) * F w x)).
Proof.
  intros He HF. assert (E : sm n (fun w => sm n (fun x => e * T x w * F w x)) = sm n (fun w => sm n (fun x => T w x * F w x))).
  { rewrite sm_comm. apply sm_ext. intros w Hw. apply sm_ext. intros x Hx. rewrite (HF w x Hw Hx). transitivity (e * e * (T w x * F w x)); [ring|]. rewrite He. ring. }
  assert (E2 : sm n (fun w => sm n (fun x => (T w x + e * T x w) * F w x)) = sm n (fun w => sm n (fun x => T w x * F w x)) + sm n (fun w => sm n (fun x => e * T x w * F w x))).
  { rewrite <- sm_plus. apply sm_ext. intros w Hw. rewrite <- sm_plus. apply sm_ext. intros x Hx. ring. }
  rewrite E2, E. lra.
Qed.
Definition quad (ni na : nat) (hh pp : nat -> nat -> R) (g : nat -> nat -> nat -> nat -> R) : R := sm ni (fun w => sm ni (fun x => hh w x * sm na (fun y => sm na (fun z => pp y z * g w x y z)))).
Lemma quad_symm ni na hh pp g e : e * e = 1 -> (forall w x y z, g x w y z = e * g w x y z) -> (forall w x y z, g w x z y = e * g w x y z) ->
  quad ni na hh pp g = 1 / 4 * quad ni na (fun w x => hh w x + e * hh x w) (fun y z => pp y z + e * pp z y) g.
Proof.
  intros He G1 G2. unfold quad. rewrite (symm ni hh _ e He).
  - replace (1 / 4) with (1 / 2 * (1 / 2)) by field. rewrite Rmult_assoc. f_equal. rewrite sm_mul. apply sm_ext. intros w Hw. rewrite sm_mul. apply sm_ext. intros x Hx. rewrite (symm na pp (g w x) e He) by (intros y z _ _; apply G2). ring.
  - intros w x _ _. rewrite sm_mul. apply sm_ext. intros y _. rewrite sm_mul. apply sm_ext. intros z _. rewrite G1. ring.
Qed.
Theorem C76_2c ni na xi xa psi_i' psi_i psi_a' psi_a h_iaia : (0 < ni)%nat -> (0 < na)%nat -> proper ni xi psi_i' psi_i -> proper na xa psi_a' psi_a ->
  changes xi (-1) (-1) -> changes xa 1 1 -> (forall w z x y, h_iaia w z x y = h_iaia x y w z) ->
  let term at_i at_a := term_2c ni na h_iaia (fun p q => at_i (el_hh ni psi_i' psi_i 1 p q)) (fun p q => at_a (fun M' M => el_hh na psi_a psi_a' 1 q p M M')) in
  reduce_spin [xi; xa] (term (high xi 0) (high xa 0)) = Ok (V (reduce_spin_none (term (here xi) (here xa)))).
Proof.
  intros Hi Ha0 Pi Pa Ci Ca Hh term. unfold term. clear term.
  assert (CR : forall c p q, (c < 2)%nat -> (p < na)%nat -> (q < na)%nat -> lowered xa c 0 (fun M' M => el_hh na psi_a psi_a' 1 q p M M' + pm c * el_hh na psi_a psi_a' 1 p q M M')).
  { intros c p q Hc Hp Hq. destruct Pa as (Hb & Hk & B & A0), Ca as [C1 C2]. rewrite <- (swap_swap xa) at 1. apply (C76_adjoint (swap xa) c 0 (fun M' M => el_hh na psi_a psi_a' 1 q p M' M + pm c * el_hh na psi_a psi_a' 1 p q M' M)).
    - apply C76_hh_mixed; [split; [exact Hk|split; [exact Hb|split; [exact A0|exact B]]]|exact Hc|exact Hq|exact Hp|]. split; cbn [swap i_bra i_ket]; lia.
    - right. cbn [swap i_bra i_ket]. unfold spin_of. lia. }
  destruct (C76_hh_mixed ni xi psi_i' psi_i 0 0 0 Pi ltac:(lia) Hi Hi Ci) as (a & Ea & _). destruct (CR 0%nat 0%nat 0%nat ltac:(lia) Ha0 Ha0) as (b & Eb & _).
  unfold term_2c. cbv zeta. rewrite (reduce22 xi xa a b _ _ Ea Eb). unfold reduce_spin_none. cbn [map fst fold_right]. f_equal. unfold V. f_equal.
  set (gp := fun w x y z => h_iaia w z x y + h_iaia w y x z). set (gm := fun w x y z => h_iaia w z x y - h_iaia w y x z).
  pose proof (fun c (Hc : (c < 2)%nat) g => bil_scale na ni _ _ _ _ g _ _ (fun p q Hp Hq => lowered_at _ _ _ _ _ (CR c p q Hc Hp Hq) Eb) (fun p q Hp Hq => lowered_at _ _ _ _ _ (C76_hh_mixed ni xi psi_i' psi_i c p q Pi Hc Hp Hq Ci) Ea)) as K.
  pose proof (K 0%nat ltac:(lia) gp) as K0. pose proof (K 1%nat ltac:(lia) gm) as K1. clear K. rewrite !comp0 in K0.
  pose proof (fun hh pp => quad_symm ni na hh pp gp (pm 0) ltac:(cbn; ring) ltac:(intros; unfold gp; rewrite (Hh x z w y), (Hh x y w z); cbn; ring) ltac:(intros; unfold gp; cbn; ring)) as Q0.
  pose proof (fun hh pp => quad_symm ni na hh pp gm (pm 1) ltac:(cbn; ring) ltac:(intros; unfold gm; rewrite (Hh x z w y), (Hh x y w z); cbn; ring) ltac:(intros; unfold gm; cbn; ring)) as Q1.
  set (hi := fun p q => high xi 0 (el_hh ni psi_i' psi_i 1 p q)). set (ha := fun p q => high xa 0 (fun M' M => el_hh na psi_a psi_a' 1 q p M M')). set (ti := fun p q => here xi (el_hh ni psi_i' psi_i 1 p q)). set (ta := fun p q => here xa (fun M' M => el_hh na psi_a psi_a' 1 q p M M')).
  change (a * b * (quad ni na hi ha gp * (1 / 2) + spin_factor_component xi 1 * spin_factor_component xa 1 * (quad ni na hi ha gm * (1 / 2))) = quad ni na ti ta gp * (1 / 2) + (quad ni na ti ta gm * (1 / 2) + 0)).
  change (quad ni na (fun w x => ti w x + pm 0 * ti x w) (fun y z => ta y z + pm 0 * ta z y) gp = b * 1 * (a * 1) * quad ni na (fun w x => hi w x + pm 0 * hi x w) (fun y z => ha y z + pm 0 * ha z y) gp) in K0.
  change (quad ni na (fun w x => ti w x + pm 1 * ti x w) (fun y z => ta y z + pm 1 * ta z y) gm = b * spin_factor_component xa 1 * (a * spin_factor_component xi 1) * quad ni na (fun w x => hi w x + pm 1 * hi x w) (fun y z => ha y z + pm 1 * ha z y) gm) in K1.
  rewrite (Q0 hi ha), (Q0 ti ta), (Q1 hi ha), (Q1 ti ta), K0, K1. ring.
Qed.

(** ** an h1 that depends on spin (hams2ovlp.py:23-26: optionally spin-separated) *)
Definition one (M : Z) : vec Rs := fun d => match M with 1%Z => det 1 d | (-1)%Z => det 2 d | _ => 0 end.
Lemma one_ok : multiplet 1 1 one.
Proof.
  intros M H. assert (G : (M = 1 \/ M = -1)%Z) by (destruct H as [A [j Ej]]; lia). clear H.
  destruct G as [->| ->]; unfold down, up, hf.
  - replace ((1 / 2 + 1 / 2) * (1 / 2 - 1 / 2 + 1)) with 1 by field. replace ((1 / 2 - 1 / 2) * (1 / 2 + 1 / 2 + 1)) with 0 by field. rewrite sqrt_0, sqrt_1. split; intros d H; each H d; fin2.
  - replace ((1 / 2 + -1 / 2) * (1 / 2 - -1 / 2 + 1)) with 0 by field. replace ((1 / 2 - -1 / 2) * (1 / 2 + -1 / 2 + 1)) with 1 by field. rewrite sqrt_0, sqrt_1. split; intros d H; each H d; fin2.
Qed.
Definition x_up := mkInfo (1, 0)%nat (1, 0)%nat 2 2.
Definition x_dn := mkInfo (0, 1)%nat (0, 1)%nat 2 2.
Lemma up_proper : proper 1 x_up one one. Proof. split; [exact one_ok|split; [exact one_ok|split; apply mem_1; cbn; lia]]. Qed.
Lemma dn_proper : proper 1 x_dn one one. Proof. split; [exact one_ok|split; [exact one_ok|split; apply mem_1; cbn; lia]]. Qed.
Lemma one_tables : (forall k, (k < 2)%nat -> high x_dn 0 (el_dm1 1 one one k 0 0) = if (k =? 0)%nat then 1 else 0) /\ (forall k, (k < 2)%nat -> here x_dn (el_dm1 1 one one k 0 0) = if (k =? 0)%nat then 0 else 1) /\
  (forall k, (k < 2)%nat -> high x_up 0 (el_dm1 1 one one k 0 0) = if (k =? 0)%nat then 1 else 0) /\ (forall k, (k < 2)%nat -> here x_up (el_dm1 1 one one k 0 0) = if (k =? 0)%nat then 1 else 0).
Proof. repeat split; intros [|[|]] Hk; try lia; fin2. Qed.
(** One electron in one orbital, of energy 1 with spin up and -1 with spin down: the energy of spin down comes out as that of spin up. *)
Definition zeeman (s p q : nat) : R := if (s =? 0)%nat then 1 else -1.
Theorem C76_spin_h1_refuted : exists n x psi' psi h1 h2, (0 < n)%nat /\ proper n x psi' psi /\ changes x 0 0 /\ (forall s p q, h1 s p q = h1 s q p) /\
  let term t := term_1d n h1 h2 (fun k p q => t (el_dm1 n psi' psi k p q)) (fun k p q r s => t (el_dm2 n psi' psi k p q r s)) in
  reduce_spin [x] (term (high x 0)) = Ok (V 1) /\ reduce_spin_none (term (here x)) = -1.
Proof.
  exists 1%nat, x_dn, one, one, zeeman, (fun _ _ _ _ => 0). split; [lia|]. split; [exact dn_proper|]. split; [split; reflexivity|]. split; [reflexivity|]. cbv zeta. destruct one_tables as (T1 & T2 & _ & _). unfold term_1d. cbv zeta. split.
  - rewrite (reduce1 x_dn 1) by reflexivity. f_equal. unfold V. f_equal. cbn [sm seq map fold_right]. rewrite (T1 0%nat), (T1 1%nat) by lia. cbn [Nat.eqb zeeman]. field.
  - unfold reduce_spin_none. cbn [sm seq map fold_right fst]. rewrite (T2 0%nat), (T2 1%nat) by lia. cbn [Nat.eqb zeeman]. field.
Qed.
(** Two fragments with one electron each, Coulomb and exchange integrals 1: nothing remains for parallel spins, which the tables at high m
    have; the spin factor -1 of the spin down makes it the Coulomb integral. *)
Example C76_example : let term := term_2d 1 1 (fun _ _ _ _ => 1) (fun _ _ _ _ => 1) in let d x t := fun k p q => t x (el_dm1 1 one one k p q) in
  let hi x := high x 0 in
  proper 1 x_dn one one /\ proper 1 x_up one one /\ reduce_spin_none (term (d x_dn hi) (d x_up hi)) = 0 /\ reduce_spin_none (term (d x_dn here) (d x_up here)) = 1 /\
  reduce_spin [x_dn; x_up] (term (d x_dn hi) (d x_up hi)) = Ok (V 1).
Proof.
  cbv zeta. destruct one_tables as (T1 & T2 & T3 & T4). split; [exact dn_proper|]. split; [exact up_proper|]. split; [|split].
  - unfold reduce_spin_none, term_2d. cbn [sm seq map fold_right fst cs]. rewrite (T1 0%nat), (T1 1%nat), (T3 0%nat), (T3 1%nat) by lia. cbn [Nat.eqb]. field.
  - unfold reduce_spin_none, term_2d. cbn [sm seq map fold_right fst cs]. rewrite (T2 0%nat), (T2 1%nat), (T4 0%nat), (T4 1%nat) by lia. cbn [Nat.eqb]. field.
  - unfold term_2d. cbv zeta. rewrite (reduce22 x_dn x_up 1 1) by reflexivity. f_equal. unfold V. f_equal. cbn [sm seq map fold_right cs]. rewrite (T1 0%nat), (T1 1%nat), (T3 0%nat), (T3 1%nat) by lia. cbn [Nat.eqb]. unfold spin_factor_component, x_dn, x_up, spin_of. cbn [i_bra i_ket i_sbra i_sket fst snd Z.eqb Pos.eqb negb orb Nat.eqb Z.of_nat Z.sub Z.opp Z.add Pos.of_succ_nat Z.pos_sub Pos.pred_double]. field.
Qed.
Print Assumptions C76_1d.
Print Assumptions C76_2d.
Print Assumptions C76_1c.
Print Assumptions C76_2c.
Print Assumptions C76_spin_h1_refuted.
Print Assumptions C76_example.
