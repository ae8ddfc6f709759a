(** C76: the remaining terms of the Hamiltonian made at high m and lowered are those of the members of the multiplets. *)
From Coq Require Import List Bool Arith NArith ZArith Reals Lia Lra.
From Verif Require Import Base BaseFacts Star FockSpec FockFacts FockOps LsisUpdModel SmultSpec SmultComm SmultModel PropSmult SpfacModel SpfacRestModel SpfacFacts PropSpfac PropSpfacTerm.
Import ListNotations.
Local Open Scope R_scope.

(** electrons of spin up and down that an operator of spin [s] removes *)
Definition na_of (s : nat) : Z := if dn s then 0 else 1.
Definition nb_of (s : nat) : Z := if dn s then 1 else 0.
(** elements of the members, and at high m *)
Definition own (x : info) (Q : Z) (f : Z -> Z -> R) : R := here x f.
Definition adj (f : Z -> Z -> R) : Z -> Z -> R := fun M' M => f M M'.
Definition Qs (s : nat) : Z := two_m [dn s] [].

(** ** tables of a fragment are lowered by its constant factor *)
Lemma des_own n x psi' psi s a : (s < 2)%nat -> proper n x psi' psi -> changes x (- na_of s) (- nb_of s) -> spin_factor_constant x = Ok (V a) ->
  forall p, (p < n)%nat -> own x (Qs s) (el_h n psi' psi s p) = a * high x (Qs s) (el_h n psi' psi s p).
Proof.
  intros Hs HP Hc Ha p Hp. unfold own. assert (Hc' : changes x (if dn s then 0 else -1) (if dn s then -1 else 0)) by (unfold na_of, nb_of in Hc; destruct (dn s); exact Hc).
  rewrite (lowered_at _ _ _ _ _ (C76_h n x psi' psi s p HP Hs Hp Hc') Ha), comp0. unfold Qs. ring.
Qed.
Lemma des_const n x psi' psi s : (0 < n)%nat -> (s < 2)%nat -> proper n x psi' psi -> changes x (- na_of s) (- nb_of s) -> exists a, spin_factor_constant x = Ok (V a).
Proof.
  intros Hn Hs HP Hc. assert (Hc' : changes x (if dn s then 0 else -1) (if dn s then -1 else 0)) by (unfold na_of, nb_of in Hc; destruct (dn s); exact Hc). destruct (C76_h n x psi' psi s 0 HP Hs Hn Hc') as (a & Ha & _). exists a. exact Ha.
Qed.
Lemma cre_own n x psi' psi s a : (s < 2)%nat -> proper n x psi' psi -> changes x (na_of s) (nb_of s) -> spin_factor_constant x = Ok (V a) ->
  forall p, (p < n)%nat -> own x (- Qs s) (adj (el_h n psi psi' s p)) = a * high x (- Qs s) (adj (el_h n psi psi' s p)).
Proof.
  intros Hs HP Hc Ha p Hp. unfold own. assert (Hc' : changes x (if dn s then 0 else 1) (if dn s then 1 else 0)) by (unfold na_of, nb_of in Hc; destruct (dn s); exact Hc).
  unfold adj. rewrite (lowered_at _ _ _ _ _ (created n x psi' psi s p HP Hs Hp Hc') Ha), comp0. unfold Qs. ring.
Qed.
Lemma cre_const n x psi' psi s : (0 < n)%nat -> (s < 2)%nat -> proper n x psi' psi -> changes x (na_of s) (nb_of s) -> exists a, spin_factor_constant x = Ok (V a).
Proof.
  intros Hn Hs HP Hc. assert (Hc' : changes x (if dn s then 0 else 1) (if dn s then 1 else 0)) by (unfold na_of, nb_of in Hc; destruct (dn s); exact Hc). destruct (created n x psi' psi s 0 HP Hs Hn Hc') as (a & Ha & _). exists a. exact Ha.
Qed.
Lemma flip n x psi' psi : proper n x psi' psi -> proper n (swap x) psi psi'.
Proof. intros (Hb & Hk & B & A0). split; [exact Hk|split; [exact Hb|split; [exact A0|exact B]]]. Qed.
Lemma raised n x psi' psi p q : proper n x psi' psi -> (p < n)%nat -> (q < n)%nat -> changes x 1 (-1) -> lowered x 0 (- two_m [false] [true]) (adj (el_sm n psi psi' p q)).
Proof.
  intros HP Hp Hq [C1 C2]. rewrite <- (swap_swap x) at 1. apply C76_adjoint; [|left; reflexivity]. apply C76_sm; [apply flip; exact HP|exact Hp|exact Hq|]. split; cbn [swap i_bra i_ket]; lia.
Qed.
Lemma reduce3 x y z a b c v : spin_factor_constant x = Ok (V a) -> spin_factor_constant y = Ok (V b) -> spin_factor_constant z = Ok (V c) -> reduce_spin [x; y; z] [(v, [])] = Ok (V (a * b * c * v)).
Proof. intros Ha Hb Hc. unfold reduce_spin. cbn [mapM bind fold_right fold_left combine fst snd]. rewrite Ha, Hb, Hc. cbn [bind fold_left nmul V]. f_equal. unfold V. f_equal. ring. Qed.
Lemma reduce32 x y z a b c v w : spin_factor_constant x = Ok (V a) -> spin_factor_constant y = Ok (V b) -> spin_factor_constant z = Ok (V c) ->
  reduce_spin [x; y; z] [(v, [0; 0; 0]%nat); (w, [0; 0; 1]%nat)] = Ok (V (a * b * c * (v + spin_factor_component z 1 * w))).
Proof. intros Ha Hb Hc. unfold reduce_spin. cbn [mapM bind fold_right fold_left combine fst snd]. rewrite Ha, Hb, Hc, !comp0. cbn [bind fold_left nmul V]. f_equal. unfold V. f_equal. ring. Qed.

(** ** spins are exchanged *)
Theorem C76_1s ni nj xi xj psi_i' psi_i psi_j' psi_j h_jiij : (0 < ni)%nat -> (0 < nj)%nat -> proper ni xi psi_i' psi_i -> proper nj xj psi_j' psi_j -> changes xi 1 (-1) -> changes xj (-1) 1 ->
  let Q := two_m [false] [true] in
  let term (t : info -> Z -> (Z -> Z -> R) -> R) := term_1s ni nj h_jiij (fun p q => t xi (- Q)%Z (adj (el_sm ni psi_i psi_i' q p))) (fun p q => t xj Q (el_sm nj psi_j' psi_j p q)) in
  reduce_spin [xi; xj] (term high) = Ok (V (reduce_spin_none (term own))).
Proof.
  intros Hi Hj Pi Pj Ci Cj Q term. unfold term. clear term. destruct (raised ni xi psi_i' psi_i 0 0 Pi Hi Hi Ci) as (a & Ha & _). destruct (C76_sm nj xj _ _ 0 0 Pj Hj Hj Cj) as (b & Hb & _).
  unfold term_1s. rewrite (reduce2 xi xj a b _ Ha Hb). unfold reduce_spin_none. cbn [map fst fold_right]. f_equal. unfold V. f_equal. rewrite Rplus_0_r, <- Rmult_assoc. f_equal. symmetry.
  apply (bil_scale ni nj _ _ _ _ (fun p q r u => h_jiij p u r q) a b).
  - intros p q Hp Hq. unfold own. rewrite (lowered_at _ _ _ _ _ (raised ni xi psi_i' psi_i q p Pi Hq Hp Ci) Ha), comp0. unfold Q. ring.
  - intros p q Hp Hq. unfold own. rewrite (lowered_at _ _ _ _ _ (C76_sm nj xj psi_j' psi_j p q Pj Hp Hq Cj) Hb), comp0. unfold Q. ring.
Qed.

(** ** an electron goes from fragment j to fragment i *)
Section Hop.
Variables (ni nj : nat) (xi xj : info) (psi_i' psi_i psi_j' psi_j : Z -> vec Rs) (s t : nat) (a b : R).
Hypothesis Hs : (s < 2)%nat. Hypothesis Ht : (t < 2)%nat.
Hypothesis Pi : proper ni xi psi_i' psi_i. Hypothesis Pj : proper nj xj psi_j' psi_j.
Hypothesis Ci : changes xi (na_of s) (nb_of s). Hypothesis Cj : changes xj (- na_of t) (- nb_of t).
Hypothesis Ha : spin_factor_constant xi = Ok (V a). Hypothesis Hb : spin_factor_constant xj = Ok (V b).
Definition hop (f : info -> Z -> (Z -> Z -> R) -> R) (h : nat -> nat -> R) : R :=
  sm nj (fun y => f xj (Qs t) (el_h nj psi_j' psi_j t y) * sm ni (fun z => f xi (- Qs s)%Z (adj (el_h ni psi_i psi_i' s z)) * h y z)).
Lemma hop_own h : hop own h = a * b * hop high h.
Proof.
  unfold hop. rewrite sm_mul. apply sm_ext. intros y Hy. rewrite (des_own nj xj psi_j' psi_j t b Ht Pj Cj Hb y Hy).
  assert (E : sm ni (fun z => own xi (- Qs s) (adj (el_h ni psi_i psi_i' s z)) * h y z) = a * sm ni (fun z => high xi (- Qs s) (adj (el_h ni psi_i psi_i' s z)) * h y z)).
  { rewrite sm_mul. apply sm_ext. intros z Hz. rewrite (cre_own ni xi psi_i' psi_i s a Hs Pi Ci Ha z Hz). ring. }
  rewrite E. ring.
Qed.
End Hop.
Lemma dens_hop nk (f g : nat -> nat -> R) (h1 h2 : nat -> nat -> R) c d : (forall r u, (r < nk)%nat -> (u < nk)%nat -> f r u = c * g r u) -> (forall r u, h1 r u = d * h2 r u) ->
  sm nk (fun r => sm nk (fun u => f r u * h1 r u)) = c * d * sm nk (fun r => sm nk (fun u => g r u * h2 r u)).
Proof. intros Hf Hh. rewrite sm_mul. apply sm_ext. intros r Hr. rewrite sm_mul. apply sm_ext. intros u Hu. rewrite (Hf r u Hr Hu), Hh. ring. Qed.
Theorem C76_1s1c ni nj nk s1 fac xi xj xk psi_i' psi_i psi_j' psi_j psi_k' psi_k h_jkki : (0 < ni)%nat -> (0 < nj)%nat -> (0 < nk)%nat -> (s1 < 2)%nat -> let s2 := (1 - s1)%nat in
  proper ni xi psi_i' psi_i -> proper nj xj psi_j' psi_j -> proper nk xk psi_k' psi_k ->
  changes xi (na_of s1) (nb_of s1) -> changes xj (- na_of s2) (- nb_of s2) -> changes xk (na_of s2 - na_of s1) (nb_of s2 - nb_of s1) ->
  let Q := two_m [false] [true] in
  let term (t : info -> Z -> (Z -> Z -> R) -> R) := term_1s1c ni nj nk fac h_jkki (fun p => t xi (- Qs s1)%Z (adj (el_h ni psi_i psi_i' s1 p))) (fun p => t xj (Qs s2) (el_h nj psi_j' psi_j s2 p))
    (fun p q => if (s1 =? 0)%nat then t xk Q (el_sm nk psi_k' psi_k p q) else t xk (- Q)%Z (adj (el_sm nk psi_k psi_k' q p))) in
  reduce_spin [xi; xj; xk] (term high) = Ok (V (reduce_spin_none (term own))).
Proof.
  intros Hi Hj Hk Hs s2 Pi Pj Pk Ci Cj Ck Q term. unfold term. clear term. assert (Hs2 : (s2 < 2)%nat) by (unfold s2; lia).
  destruct (cre_const ni xi psi_i' psi_i s1 Hi Hs Pi Ci) as (a & Ha). destruct (des_const nj xj psi_j' psi_j s2 Hj Hs2 Pj Cj) as (b & Hb).
  assert (K : exists c, spin_factor_constant xk = Ok (V c) /\ forall p q, (p < nk)%nat -> (q < nk)%nat ->
    (if (s1 =? 0)%nat then own xk Q (el_sm nk psi_k' psi_k p q) else own xk (- Q) (adj (el_sm nk psi_k psi_k' q p))) = c * (if (s1 =? 0)%nat then high xk Q (el_sm nk psi_k' psi_k p q) else high xk (- Q) (adj (el_sm nk psi_k psi_k' q p)))).
  { destruct s1 as [|[|]]; [| |lia]; cbn [Nat.eqb].
    - change (changes xk (-1) 1) in Ck. destruct (C76_sm nk xk _ _ 0 0 Pk Hk Hk Ck) as (c & Hc & _). exists c. split; [exact Hc|]. intros p q Hp Hq. unfold own. rewrite (lowered_at _ _ _ _ _ (C76_sm nk xk psi_k' psi_k p q Pk Hp Hq Ck) Hc), comp0. unfold Q. ring.
    - change (changes xk 1 (-1)) in Ck. destruct (raised nk xk psi_k' psi_k 0 0 Pk Hk Hk Ck) as (c & Hc & _). exists c. split; [exact Hc|]. intros p q Hp Hq. unfold own. rewrite (lowered_at _ _ _ _ _ (raised nk xk psi_k' psi_k q p Pk Hq Hp Ck) Hc), comp0. unfold Q. ring. }
  destruct K as (c & Hc & Kc). unfold term_1s1c. rewrite (reduce3 xi xj xk a b c _ Ha Hb Hc). unfold reduce_spin_none. cbn [map fst fold_right]. f_equal. unfold V. f_equal. rewrite Rplus_0_r, <- Rmult_assoc. f_equal. symmetry.
  rewrite (dens_hop nk _ (fun p q => if (s1 =? 0)%nat then high xk Q (el_sm nk psi_k' psi_k p q) else high xk (- Q) (adj (el_sm nk psi_k psi_k' q p))) _ (fun r u => hop ni nj xi xj psi_i' psi_i psi_j' psi_j s1 s2 high (fun y z => h_jkki y r u z)) c (a * b) Kc); [unfold hop; ring|].
  intros r u. exact (hop_own ni nj xi xj psi_i' psi_i psi_j' psi_j s1 s2 a b Hs Hs2 Pi Pj Ci Cj Ha Hb (fun y z => h_jkki y r u z)).
Qed.
Theorem C76_1c1d ni nj nk s1 fac xi xj xk psi_i' psi_i psi_j' psi_j psi_k' psi_k h_kkji h_jkki : (0 < ni)%nat -> (0 < nj)%nat -> (0 < nk)%nat -> (s1 < 2)%nat ->
  proper ni xi psi_i' psi_i -> proper nj xj psi_j' psi_j -> proper nk xk psi_k' psi_k ->
  changes xi (na_of s1) (nb_of s1) -> changes xj (- na_of s1) (- nb_of s1) -> changes xk 0 0 ->
  let term (t : info -> Z -> (Z -> Z -> R) -> R) := term_1c1d ni nj nk s1 fac h_kkji h_jkki (fun p => t xi (- Qs s1)%Z (adj (el_h ni psi_i psi_i' s1 p))) (fun p => t xj (Qs s1) (el_h nj psi_j' psi_j s1 p))
    (fun k p q => t xk 0%Z (el_dm1 nk psi_k' psi_k k p q)) in
  reduce_spin [xi; xj; xk] (term high) = Ok (V (reduce_spin_none (term own))).
Proof.
  intros Hi Hj Hk Hs Pi Pj Pk Ci Cj Ck term. unfold term. clear term.
  destruct (cre_const ni xi psi_i' psi_i s1 Hi Hs Pi Ci) as (a & Ha). destruct (des_const nj xj psi_j' psi_j s1 Hj Hs Pj Cj) as (b & Hb). destruct (C76_dm1 nk xk _ _ 0 0 0 Pk ltac:(lia) Hk Hk Ck) as (c & Hc & _).
  pose proof (hop_own ni nj xi xj psi_i' psi_i psi_j' psi_j s1 s1 a b Hs Hs Pi Pj Ci Cj Ha Hb) as HH. set (hp := hop ni nj xi xj psi_i' psi_i psi_j' psi_j s1 s1) in *.
  unfold term_1c1d. cbv zeta. rewrite (reduce32 xi xj xk a b c _ _ Ha Hb Hc). unfold reduce_spin_none. cbn [map fst fold_right Nat.eqb]. f_equal. unfold V. f_equal.
  set (dh := fun k p q => high xk 0 (el_dm1 nk psi_k' psi_k k p q)). set (dq := fun k p q => own xk 0 (el_dm1 nk psi_k' psi_k k p q)). set (sg := if (s1 =? 0)%nat then 1 else -1).
  assert (D : forall e r u, (e < 2)%nat -> (r < nk)%nat -> (u < nk)%nat -> cs dq e r u = c * spin_factor_component xk e * cs dh e r u) by (intros e r u He Hr Hu; exact (cs_lowered nk xk psi_k' psi_k c e r u Pk Ck He Hr Hu Hc)).
  pose proof (dens_hop nk (cs dq 0) (cs dh 0) (fun r u => hp own (h_kkji u r)) (fun r u => hp high (h_kkji u r)) (c * 1) (a * b) ltac:(intros r u Hr Hu; cbv beta; rewrite (D 0%nat r u ltac:(lia) Hr Hu), comp0; reflexivity) ltac:(intros; apply HH)) as E1.
  pose proof (dens_hop nk (fun r u => cs dq 0 r u / 2) (fun r u => cs dh 0 r u / 2) (fun r u => hp own (fun y z => h_jkki y r u z)) (fun r u => hp high (fun y z => h_jkki y r u z)) (c * 1) (a * b) ltac:(intros r u Hr Hu; cbv beta; rewrite (D 0%nat r u ltac:(lia) Hr Hu), comp0; field) ltac:(intros; apply HH)) as E2.
  pose proof (dens_hop nk (fun r u => cs dq 1 r u * sg / 2) (fun r u => cs dh 1 r u * sg / 2) (fun r u => hp own (fun y z => h_jkki y r u z)) (fun r u => hp high (fun y z => h_jkki y r u z)) (c * spin_factor_component xk 1) (a * b) ltac:(intros r u Hr Hu; cbv beta; rewrite (D 1%nat r u ltac:(lia) Hr Hu); field) ltac:(intros; apply HH)) as E3.
  unfold hp, hop in E1, E2, E3. rewrite E1, E2, E3. ring.
Qed.

(** ** two electrons go from fragments i, j to fragments a, b *)
Lemma reduce_gen ints cs arr : mapM spin_factor_constant ints = Ok (map V cs) ->
  reduce_spin ints arr = Ok (V (prodR cs * sumR (map (fun a => fst a * prodR (map (fun p => spin_factor_component (fst p) (snd p)) (combine ints (snd a)))) arr))).
Proof.
  intros Hm. unfold reduce_spin. rewrite Hm. cbn [bind]. rewrite fold_nmul. cbn [nmul V]. f_equal. unfold V. f_equal. rewrite Rmult_1_l, Rmult_comm. f_equal. unfold sumR. induction arr as [|y arr IH]; cbn [map fold_right]; [reflexivity|]. rewrite IH, fold_prod, Rmult_1_l. reflexivity.
Qed.
Definition quad4 (n1 n2 n3 n4 : nat) (t u : nat -> nat -> R) (g : nat -> nat -> nat -> nat -> R) : R :=
  sm n1 (fun w => sm n2 (fun x => t w x * sm n3 (fun y => sm n4 (fun z => u y z * g w x y z)))).
Lemma quad4_scale n1 n2 n3 n4 t t' u u' g c d : (forall w x, (w < n1)%nat -> (x < n2)%nat -> t w x = c * t' w x) -> (forall y z, (y < n3)%nat -> (z < n4)%nat -> u y z = d * u' y z) ->
  quad4 n1 n2 n3 n4 t u g = c * d * quad4 n1 n2 n3 n4 t' u' g.
Proof.
  intros Ht Hu. unfold quad4. rewrite sm_mul. apply sm_ext. intros w Hw. rewrite sm_mul. apply sm_ext. intros x Hx. rewrite (Ht w x Hw Hx).
  assert (E : sm n3 (fun y => sm n4 (fun z => u y z * g w x y z)) = d * sm n3 (fun y => sm n4 (fun z => u' y z * g w x y z))) by (rewrite sm_mul; apply sm_ext; intros y Hy; rewrite sm_mul; apply sm_ext; intros z Hz; rewrite (Hu y z Hy Hz); ring).
  rewrite E. ring.
Qed.
Lemma quad4_left n n3 n4 t u g e : e * e = 1 -> (forall w x y z, g x w y z = e * g w x y z) -> quad4 n n n3 n4 t u g = 1 / 2 * quad4 n n n3 n4 (fun w x => t w x + e * t x w) u g.
Proof. intros He G. unfold quad4. apply symm; [exact He|]. intros w x _ _. rewrite sm_mul. apply sm_ext. intros y _. rewrite sm_mul. apply sm_ext. intros z _. rewrite G. ring. Qed.
Lemma quad4_right n1 n2 n t u g e : e * e = 1 -> (forall w x y z, g w x z y = e * g w x y z) -> quad4 n1 n2 n n t u g = 1 / 2 * quad4 n1 n2 n n t (fun y z => u y z + e * u z y) g.
Proof.
  intros He G. unfold quad4. rewrite sm_mul. apply sm_ext. intros w _. rewrite sm_mul. apply sm_ext. intros x _. rewrite (symm n u (g w x) e He) by (intros y z _ _; apply G). ring.
Qed.

Section TwoHops.
Variables (norb : nat -> nat) (X : nat -> info) (B K : nat -> Z -> vec Rs) (a i b j s2lt : nat).
(** s2lt = 0, 1, 2: both spins up, up and down, both down *)
Definition s11 : nat := if (s2lt =? 2)%nat then 1 else 0.
Definition s12 : nat := if (s2lt =? 0)%nat then 0 else 1.
Definition Qhh : Z := two_m [(1 <=? s2lt)%nat; (2 <=? s2lt)%nat] [].
Definition tab_ij (t : info -> Z -> (Z -> Z -> R) -> R) (w x : nat) : R :=
  if (i =? j)%nat then t (X i) Qhh (el_hh (norb i) (B i) (K i) s2lt w x)
  else t (X j) (Qs s12) (el_h (norb j) (B j) (K j) s12 w) * t (X i) (Qs s11) (el_h (norb i) (B i) (K i) s11 x).
Definition tab_ab (t : info -> Z -> (Z -> Z -> R) -> R) (y z : nat) : R :=
  if (a =? b)%nat then t (X a) (- Qhh)%Z (adj (el_hh (norb a) (K a) (B a) s2lt z y))
  else t (X a) (- Qs s11)%Z (adj (el_h (norb a) (K a) (B a) s11 y)) * t (X b) (- Qs s12)%Z (adj (el_h (norb b) (K b) (B b) s12 z)).
Definition ints_ij : list info := if (i =? j)%nat then [X i] else [X i; X j].
Definition ints_ab : list info := if (a =? b)%nat then [X a] else [X a; X b].
(** what the electrons do to the numbers of the fragments *)
Definition moved : Prop :=
  (if (i =? j)%nat then changes (X i) (- na_of s11 - na_of s12) (- nb_of s11 - nb_of s12) else changes (X i) (- na_of s11) (- nb_of s11) /\ changes (X j) (- na_of s12) (- nb_of s12)) /\
  (if (a =? b)%nat then changes (X a) (na_of s11 + na_of s12) (nb_of s11 + nb_of s12) else changes (X a) (na_of s11) (nb_of s11) /\ changes (X b) (na_of s12) (nb_of s12)).
Hypothesis Hs : (s2lt < 3)%nat.
Hypothesis Hn : forall f, (0 < norb f)%nat.
Hypothesis HP : forall f, proper (norb f) (X f) (B f) (K f).
Hypothesis HM : moved.
Lemma s11_lt : (s11 < 2)%nat. Proof. unfold s11. destruct (s2lt =? 2)%nat; lia. Qed.
Lemma s12_lt : (s12 < 2)%nat. Proof. unfold s12. destruct (s2lt =? 0)%nat; lia. Qed.
Lemma side_ij : exists cs, mapM spin_factor_constant ints_ij = Ok (map V cs) /\
  ((i <> j \/ s2lt <> 1%nat) -> forall w x, (w < norb j)%nat -> (x < norb i)%nat -> tab_ij own w x = prodR cs * tab_ij high w x) /\
  (i = j -> s2lt = 1%nat -> forall c w x, (c < 2)%nat -> (w < norb i)%nat -> (x < norb i)%nat ->
     tab_ij own w x + pm c * tab_ij own x w = prodR cs * spin_factor_component (X i) c * (tab_ij high w x + pm c * tab_ij high x w)).
Proof.
  pose proof s11_lt as L1. pose proof s12_lt as L2. destruct HM as [M _]. revert M. unfold ints_ij, tab_ij. destruct (Nat.eqb_spec i j) as [E|E]; intros M.
  - destruct (Nat.eq_dec s2lt 1) as [E1|E1].
    + assert (Hc : changes (X i) (-1) (-1)) by (unfold s11, s12 in M; rewrite E1 in M; exact M). destruct (C76_hh_mixed (norb i) (X i) (B i) (K i) 0 0 0 (HP i) ltac:(lia) (Hn i) (Hn i) Hc) as (c0 & H0 & _).
      exists [c0]. cbn [mapM bind map]. rewrite H0. cbn [bind]. split; [reflexivity|]. split; [intros [?|?]; congruence|]. intros _ _ c w x Hcc Hw Hx. unfold Qhh. rewrite E1. pose proof (lowered_at _ _ _ _ _ (C76_hh_mixed (norb i) (X i) (B i) (K i) c w x (HP i) Hcc Hw Hx Hc) H0) as L.
      unfold own, here, high, at_high in *. cbn [prodR fold_right]. rewrite Rmult_1_r. exact L.
    + assert (Hop : s2lt = 0%nat \/ s2lt = 2%nat) by lia. assert (Hc : changes (X i) (if dn s2lt then 0 else -2) (if dn s2lt then -2 else 0)) by (unfold s11, s12 in M; destruct Hop as [H| H]; rewrite H in *; exact M).
      destruct (C76_hh (norb i) (X i) (B i) (K i) s2lt 0 0 (HP i) Hop (Hn i) (Hn i) Hc) as (c0 & H0 & _). exists [c0]. cbn [mapM bind map]. rewrite H0. cbn [bind]. split; [reflexivity|]. split; [|intros _ ?; congruence].
      intros _ w x Hw Hx. rewrite <- E in Hw. unfold own. rewrite (lowered_at _ _ _ _ _ (C76_hh (norb i) (X i) (B i) (K i) s2lt w x (HP i) Hop Hw Hx Hc) H0), comp0. cbn [prodR fold_right]. unfold Qhh. ring.
  - destruct M as [Mi Mj]. destruct (des_const (norb i) (X i) (B i) (K i) s11 (Hn i) L1 (HP i) Mi) as (ci & Hi). destruct (des_const (norb j) (X j) (B j) (K j) s12 (Hn j) L2 (HP j) Mj) as (cj & Hj).
    exists [ci; cj]. cbn [mapM bind map]. rewrite Hi, Hj. cbn [bind]. split; [reflexivity|]. split; [|intros ?; contradiction]. intros _ w x Hw Hx.
    rewrite (des_own (norb j) (X j) (B j) (K j) s12 cj L2 (HP j) Mj Hj w Hw), (des_own (norb i) (X i) (B i) (K i) s11 ci L1 (HP i) Mi Hi x Hx). cbn [prodR fold_right]. ring.
Qed.
Lemma side_ab : exists cs, mapM spin_factor_constant ints_ab = Ok (map V cs) /\
  ((a <> b \/ s2lt <> 1%nat) -> forall y z, (y < norb a)%nat -> (z < norb b)%nat -> tab_ab own y z = prodR cs * tab_ab high y z) /\
  (a = b -> s2lt = 1%nat -> forall c y z, (c < 2)%nat -> (y < norb a)%nat -> (z < norb a)%nat ->
     tab_ab own y z + pm c * tab_ab own z y = prodR cs * spin_factor_component (X a) c * (tab_ab high y z + pm c * tab_ab high z y)).
Proof.
  pose proof s11_lt as L1. pose proof s12_lt as L2. destruct HM as [_ M]. revert M. unfold ints_ab, tab_ab. destruct (Nat.eqb_spec a b) as [E|E]; intros M.
  - destruct (Nat.eq_dec s2lt 1) as [E1|E1].
    + assert (Hc : changes (swap (X a)) (-1) (-1)) by (unfold s11, s12 in M; rewrite E1 in M; destruct M as [M1 M2]; cbn in M1, M2; split; cbn [swap i_bra i_ket]; lia).
      assert (HS : spin_of (i_bra (swap (X a))) = spin_of (i_ket (swap (X a)))) by (destruct Hc as [H1 H2]; unfold spin_of; lia).
      assert (L : forall c y z, (c < 2)%nat -> (y < norb a)%nat -> (z < norb a)%nat -> lowered (X a) c 0 (fun M' M => el_hh (norb a) (K a) (B a) 1 z y M M' + pm c * el_hh (norb a) (K a) (B a) 1 y z M M')).
      { intros c y z Hcc Hy Hz. rewrite <- (swap_swap (X a)). apply (C76_adjoint (swap (X a)) c 0 (fun M' M => el_hh (norb a) (K a) (B a) 1 z y M' M + pm c * el_hh (norb a) (K a) (B a) 1 y z M' M)); [|right; exact HS]. apply C76_hh_mixed; [apply flip, HP|exact Hcc|exact Hz|exact Hy|exact Hc]. }
      destruct (L 0%nat 0%nat 0%nat ltac:(lia) (Hn a) (Hn a)) as (c0 & H0 & _). exists [c0]. cbn [mapM bind map]. rewrite H0. cbn [bind]. split; [reflexivity|]. split; [intros [?|?]; congruence|].
      intros _ _ c y z Hcc Hy Hz. unfold Qhh. rewrite E1. pose proof (lowered_at _ _ _ _ _ (L c y z Hcc Hy Hz) H0) as L'. unfold own, here, high, at_high, adj in *. cbn [prodR fold_right]. rewrite Rmult_1_r. exact L'.
    + assert (Hop : s2lt = 0%nat \/ s2lt = 2%nat) by lia. assert (Hc : changes (swap (X a)) (if dn s2lt then 0 else -2) (if dn s2lt then -2 else 0)) by (unfold s11, s12 in M; destruct Hop as [H| H]; rewrite H in *; destruct M as [M1 M2]; cbn in M1, M2; split; cbn [swap i_bra i_ket dn Nat.eqb negb]; lia).
      assert (L : forall y z, (y < norb a)%nat -> (z < norb a)%nat -> lowered (X a) 0 (- Qhh) (adj (el_hh (norb a) (K a) (B a) s2lt z y))).
      { intros y z Hy Hz. rewrite <- (swap_swap (X a)). apply C76_adjoint; [|left; reflexivity]. apply C76_hh; [apply flip, HP|exact Hop|exact Hz|exact Hy|exact Hc]. }
      destruct (L 0%nat 0%nat (Hn a) (Hn a)) as (c0 & H0 & _). exists [c0]. cbn [mapM bind map]. rewrite H0. cbn [bind]. split; [reflexivity|]. split; [|intros _ ?; congruence].
      intros _ y z Hy Hz. rewrite <- E in Hz. unfold own. rewrite (lowered_at _ _ _ _ _ (L y z Hy Hz) H0), comp0. cbn [prodR fold_right]. ring.
  - destruct M as [Ma Mb]. destruct (cre_const (norb a) (X a) (B a) (K a) s11 (Hn a) L1 (HP a) Ma) as (ca & Ha). destruct (cre_const (norb b) (X b) (B b) (K b) s12 (Hn b) L2 (HP b) Mb) as (cb & Hb).
    exists [ca; cb]. cbn [mapM bind map]. rewrite Ha, Hb. cbn [bind]. split; [reflexivity|]. split; [|intros ?; contradiction]. intros _ y z Hy Hz.
    rewrite (cre_own (norb a) (X a) (B a) (K a) s11 ca L1 (HP a) Ma Ha y Hy), (cre_own (norb b) (X b) (B b) (K b) s12 cb L2 (HP b) Mb Hb z Hz). cbn [prodR fold_right]. ring.
Qed.
End TwoHops.
Lemma mapM_two {A C} (f : A -> res C) l l' r r' : mapM f l = Ok r -> mapM f l' = Ok r' -> mapM f (l ++ l') = Ok (r ++ r').
Proof.
  revert r. induction l as [|y l IH]; intros r H H'; cbn [mapM bind app] in *; [injection H as <-; exact H'|]. destruct (f y) as [v|]; cbn [bind] in *; [|discriminate]. destruct (mapM f l) as [vs|]; cbn [bind] in *; [|discriminate]. injection H as <-. rewrite (IH vs eq_refl H'). reflexivity.
Qed.
Lemma prodR_app l l' : prodR (l ++ l') = prodR l * prodR l'.
Proof. unfold prodR. induction l as [|y l IH]; cbn [app fold_right]; [ring|]. rewrite IH. ring. Qed.
Theorem C76_2c_any norb X B K a i b j s2lt fac h2 : (s2lt < 3)%nat -> (forall f, (0 < norb f)%nat) -> (forall f, proper (norb f) (X f) (B f) (K f)) -> moved X a i b j s2lt ->
  (forall p q r s, h2 p q r s = h2 r s p q) ->
  let term (t : info -> Z -> (Z -> Z -> R) -> R) := term_2c_any norb a i b j (negb (s2lt =? 1)%nat) fac h2 (tab_ij norb X B K i j s2lt t) (tab_ab norb X B K a b s2lt t) in
  reduce_spin (ints_ij X i j ++ ints_ab X a b) (term high) = Ok (V (reduce_spin_none (term own))).
Proof.
  intros Hs Hn HP HM Hh term. unfold term. clear term.
  destruct (side_ij norb X B K a i b j s2lt Hs Hn HP HM) as (ci & Mi & Pi & Xi). destruct (side_ab norb X B K a i b j s2lt Hs Hn HP HM) as (ca & Ma & Pa & Xa). pose proof (mapM_two _ _ _ _ _ Mi Ma) as MM. rewrite <- map_app in MM.
  rewrite (reduce_gen _ _ _ MM), prodR_app. unfold term_2c_any. cbv zeta.
  set (hi := tab_ij norb X B K i j s2lt high) in *. set (ti := tab_ij norb X B K i j s2lt own) in *. set (ha := tab_ab norb X B K a b s2lt high) in *. set (ta := tab_ab norb X B K a b s2lt own) in *.
  set (fc := (if (a =? b)%nat && (i =? j)%nat && negb (s2lt =? 1)%nat then 1 / 2 else 1) * fac).
  set (gj := fun w x y z => h2 (j, w) (b, z) (i, x) (a, y)). set (gk := fun w x y z => h2 (j, w) (a, y) (i, x) (b, z)).
  set (gp := fun w x y z => gj w x y z + gk w x y z). set (gm := fun w x y z => gj w x y z - gk w x y z).
  set (q := quad4 (norb j) (norb i) (norb a) (norb b)).
  set (zs := (if (i =? j)%nat then [0] else [0; 0])%nat ++ (if (a =? b)%nat then [0] else [0; 0])%nat). set (os := (if (i =? j)%nat then [1] else [0; 0])%nat ++ (if (a =? b)%nat then [1] else [0; 0])%nat).
  set (arr := fun t u => if negb (negb (s2lt =? 1)%nat) && ((a =? b)%nat || (i =? j)%nat) then [(q t u gp * (fc * (1 / 2)), zs); (q t u gm * (fc * (1 / 2)), os)]
    else if negb (s2lt =? 1)%nat && negb (a =? b)%nat && negb (i =? j)%nat then [(q t u gm * fc, [])] else [(q t u gj * fc, [])]).
  match goal with |- Ok (V (?c * sumR (map ?f ?l))) = Ok (V (reduce_spin_none ?m)) => change (Ok (V (c * sumR (map f (arr hi ha)))) = Ok (V (reduce_spin_none (arr ti ta)))) end.
  assert (Plain : (i <> j \/ s2lt <> 1%nat) -> (a <> b \/ s2lt <> 1%nat) -> forall g, quad4 (norb j) (norb i) (norb a) (norb b) ti ta g = prodR ci * prodR ca * quad4 (norb j) (norb i) (norb a) (norb b) hi ha g).
  { intros H1 H2 g. apply quad4_scale; [exact (Pi H1)|exact (Pa H2)]. }
  fold q in Plain. f_equal. f_equal. unfold reduce_spin_none, arr. rewrite negb_involutive.
  destruct (Nat.eqb_spec s2lt 1) as [S1|S1].
  - cbn [negb andb]. destruct ((a =? b)%nat || (i =? j)%nat) eqn:EO.
    + cbn [map fst snd sumR fold_right]. unfold zs, os, ints_ij, ints_ab in *. destruct (Nat.eqb_spec i j) as [E|E], (Nat.eqb_spec a b) as [F|F]; try discriminate EO; clear EO; cbn [app combine map fst snd prodR fold_right]; rewrite !comp0.
      * assert (Sp : forall w x y z, gp x w y z = pm 0 * gp w x y z) by (intros; unfold gp, gj, gk; rewrite <- E, <- F, (Hh (i, x) (a, z)), (Hh (i, x) (a, y)); cbn; ring).
        assert (Sm : forall w x y z, gm x w y z = pm 1 * gm w x y z) by (intros; unfold gm, gj, gk; rewrite <- E, <- F, (Hh (i, x) (a, z)), (Hh (i, x) (a, y)); cbn; ring).
        assert (Rp : forall w x y z, gp w x z y = pm 0 * gp w x y z) by (intros; unfold gp, gj, gk; rewrite <- F; cbn; ring).
        assert (Rm : forall w x y z, gm w x z y = pm 1 * gm w x y z) by (intros; unfold gm, gj, gk; rewrite <- F; cbn; ring).
        unfold q. rewrite <- E, <- F. rewrite (quad4_left _ _ _ hi ha gp (pm 0)), (quad4_left _ _ _ hi ha gm (pm 1)), (quad4_left _ _ _ ti ta gp (pm 0)), (quad4_left _ _ _ ti ta gm (pm 1)) by (assumption || (cbn; ring)).
        rewrite (quad4_right _ _ _ _ ha gp (pm 0)), (quad4_right _ _ _ _ ha gm (pm 1)), (quad4_right _ _ _ _ ta gp (pm 0)), (quad4_right _ _ _ _ ta gm (pm 1)) by (assumption || (cbn; ring)).
        rewrite (quad4_scale _ _ _ _ _ _ _ _ gp _ _ (fun w x => Xi E S1 0%nat w x ltac:(lia)) (fun y z => Xa F S1 0%nat y z ltac:(lia))), (quad4_scale _ _ _ _ _ _ _ _ gm _ _ (fun w x => Xi E S1 1%nat w x ltac:(lia)) (fun y z => Xa F S1 1%nat y z ltac:(lia))), !comp0. ring.
      * assert (Sp : forall w x y z, gp x w y z = pm 0 * gp w x y z) by (intros; unfold gp, gj, gk; rewrite <- E, (Hh (i, x) (b, z)), (Hh (i, x) (a, y)); cbn; ring).
        assert (Sm : forall w x y z, gm x w y z = pm 1 * gm w x y z) by (intros; unfold gm, gj, gk; rewrite <- E, (Hh (i, x) (b, z)), (Hh (i, x) (a, y)); cbn; ring).
        unfold q. rewrite <- E. rewrite (quad4_left _ _ _ hi ha gp (pm 0)), (quad4_left _ _ _ hi ha gm (pm 1)), (quad4_left _ _ _ ti ta gp (pm 0)), (quad4_left _ _ _ ti ta gm (pm 1)) by (assumption || (cbn; ring)).
        rewrite (quad4_scale _ _ _ _ _ _ _ _ gp _ _ (fun w x => Xi E S1 0%nat w x ltac:(lia)) (Pa (or_introl F))), (quad4_scale _ _ _ _ _ _ _ _ gm _ _ (fun w x => Xi E S1 1%nat w x ltac:(lia)) (Pa (or_introl F))), !comp0. ring.
      * assert (Rp : forall w x y z, gp w x z y = pm 0 * gp w x y z) by (intros; unfold gp, gj, gk; rewrite <- F; cbn; ring).
        assert (Rm : forall w x y z, gm w x z y = pm 1 * gm w x y z) by (intros; unfold gm, gj, gk; rewrite <- F; cbn; ring).
        unfold q. rewrite <- F. rewrite (quad4_right _ _ _ hi ha gp (pm 0)), (quad4_right _ _ _ hi ha gm (pm 1)), (quad4_right _ _ _ ti ta gp (pm 0)), (quad4_right _ _ _ ti ta gm (pm 1)) by (assumption || (cbn; ring)).
        rewrite (quad4_scale _ _ _ _ _ _ _ _ gp _ _ (Pi (or_introl E)) (fun y z => Xa F S1 0%nat y z ltac:(lia))), (quad4_scale _ _ _ _ _ _ _ _ gm _ _ (Pi (or_introl E)) (fun y z => Xa F S1 1%nat y z ltac:(lia))), !comp0. ring.
    + apply orb_false_iff in EO. destruct EO as [F E]. apply Nat.eqb_neq in E, F. cbn [map fst snd sumR fold_right]. rewrite combine_nil. cbn [map prodR fold_right]. rewrite (Plain (or_introl E) (or_introl F)). ring.
  - cbn [negb andb]. destruct (negb (a =? b)%nat && negb (i =? j)%nat); cbn [map fst snd sumR fold_right]; rewrite combine_nil; cbn [map prodR fold_right]; rewrite (Plain (or_intror S1) (or_intror S1)); ring.
Qed.
Print Assumptions C76_1s.
Print Assumptions C76_1s1c.
Print Assumptions C76_1c1d.
Print Assumptions C76_2c_any.
