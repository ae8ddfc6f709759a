(** Property C62: operators of uccsd_sym1 conserve the number of electrons of each spin, and those
    made of spin-adapted singles conserve the spin.  Exact real arithmetic. *)
From Coq Require Import List NArith ZArith Arith Bool Lia Reals Lra Sorting.Permutation.
From Coq Require QArith Qcanon.
From Verif Require Import Base Star FockSpec FockFacts FsuccModel FsuccFacts FsuccProofs FockOps FsuccHop PropFsucc
  UccModel UccProofs UccReal UccInit UccUniq PropUcc SpinRot UccSymModel UccSymFacts UccSymProofs UccSymSpin PropUccSym.
Import ListNotations.
Local Open Scope R_scope.

(** U A psi = A U psi: the operator is called on [psi] and on [A psi] *)
Definition commutes (is0 : R -> bool) (sched : list N -> list N) (u : uop R) (tr : bool) (A : rvec -> rvec) : Prop :=
  forall psi, exists r r', call Rstar is0 sched R my_amp cos sin u true tr psi = Ok r /\
    call Rstar is0 sched R my_amp cos sin u true tr (A psi) = Ok r' /\ veq Rstar (u_norb R u) r' (A r).

Section C62.
Variable is0 : R -> bool.
Hypothesis is0_ok : forall x, is0 x = true -> x = 0.
Variable sched : list N -> list N.
Hypothesis sched_ok : forall l, Permutation (sched l) l.
Notation call := (call Rstar is0 sched R my_amp cos sin).
Notation veq := (veq Rstar).
Notation commutes := (commutes is0 sched).

Lemma call_commutes m (u : uop R) tr (A : rvec -> rvec) : (m < 31)%nat -> u_norb R u = m -> Forall (sane m) (u_gens R u) -> length (u_amps R u) = length (u_gens R u) ->
  (forall v w, veq m v w -> veq m (A v) (A w)) -> (forall v, veq m (prodR m (facs R u) (A v)) (A (prodR m (facs R u) v))) -> commutes u tr A.
Proof.
  intros Hm Um Us Ul Ext C psi. rewrite Um.
  destruct (call_ok Rstar is0 is0_ok sched sched_ok R my_amp cos sin my_cos my_sin m Hm u Um Us Ul tr psi psi (veq_refl _ _ _)) as [r [E V]].
  destruct (call_ok Rstar is0 is0_ok sched sched_ok R my_amp cos sin my_cos my_sin m Hm u Um Us Ul tr (A psi) (A psi) (veq_refl _ _ _)) as [r' [E' V']].
  exists r, r'. split; [exact E|]. split; [exact E'|]. apply (veq_trans _ _ _ _ _ V'). clear V' E'.
  assert (Ok_ : Forall (fun y : gen * R => sane m (fst y)) (facs R u)).
  { apply Forall_forall. intros [g t] H. apply in_combine_l in H. rewrite Forall_forall in Us. now apply Us. }
  destruct tr.
  - set (l := facs R u) in *. set (w := prod Rstar R cos sin m true (rev l) psi) in *.
    assert (E1 : veq m (A psi) (prodR m l (A w))).
    { apply veq_sym. apply (veq_trans _ _ _ _ _ (C w)). apply Ext. unfold w. exact (prod_rev' Rstar R cos sin pythR m false l Ok_ psi). }
    apply (veq_trans Rstar _ _ (prod Rstar R cos sin m true (rev l) (prodR m l (A w)))).
    + apply prod_ext; [now apply Forall_rev|exact E1].
    + apply (veq_trans Rstar _ _ (A w)); [exact (prod_rev Rstar R cos sin pythR m false l Ok_ (A w))|]. apply Ext. now apply veq_sym.
  - apply (veq_trans _ _ _ _ _ (C psi)). apply Ext. now apply veq_sym.
Qed.

Lemma set_sane norb s2sym aa ii u st (x : list R) : init1 R 0 norb s2sym aa ii = Ok (u, st) ->
  u_norb R (set_amps R u x) = (2 * norb)%nat /\ Forall (sane (2 * norb)) (u_gens R (set_amps R u x)).
Proof.
  intros H. destruct (C61_sound _ _ _ _ _ _ _ _ H) as (H1 & H2 & _). cbn [set_amps u_norb u_gens]. split; [exact H1|].
  rewrite Forall_forall in *. intros g I. now apply H2.
Qed.
Lemma num_ext norb lo (v w : rvec) : veq (2 * norb) v w -> veq (2 * norb) (num Rstar norb lo v) (num Rstar norb lo w).
Proof. intros H e He. rewrite !num_cnt. now rewrite (H e He). Qed.

(** ** number of electrons of each spin *)
Theorem C62_numbers norb s2sym aa ii u st x tr lo : init1 R 0 norb s2sym aa ii = Ok (u, st) -> (2 * norb < 31)%nat -> length x = length (u_gens R u) ->
  lo = 0%nat \/ lo = norb -> commutes (set_amps R u x) tr (num Rstar norb lo).
Proof.
  intros H Hm L Lo. destruct (set_sane _ _ _ _ _ _ x H) as [H1 H2]. destruct (C61_sound _ _ _ _ _ _ _ _ H) as (_ & V & _).
  apply (call_commutes (2 * norb)); auto.
  - intros v w. apply num_ext.
  - intros v e _. symmetry. apply prod_num; [exact Lo|]. apply Forall_forall. intros [g t] I. unfold facs in I. cbn [set_amps u_gens] in I. apply in_combine_l in I.
    rewrite Forall_forall in V. now apply V.
Qed.

(** ** spin *)
Definition spins (norb : nat) : list (rvec -> rvec) := [Splus Rstar norb; Sminus Rstar norb; Sz Rstar (/ 2) norb; Ssquare Rstar (/ 2) norb].
Lemma spins_ext norb A v w : In A (spins norb) -> veq (2 * norb) v w -> veq (2 * norb) (A v) (A w).
Proof.
  intros I H. assert (S0 : spin norb 0) by now left. assert (Sn : spin norb norb) by now right.
  assert (E : forall o o' v w, spin norb o -> spin norb o' -> veq (2 * norb) v w -> veq (2 * norb) (trans Rstar norb o o' v) (trans Rstar norb o o' w)) by (intros; now apply trans_veq).
  intros e He. destruct I as [<-|[<-|[<-|[<-|[]]]]].
  - rewrite !Sp_eq. now apply E.
  - rewrite !Sm_eq. now apply E.
  - unfold Sz. rewrite !num_0, !num_n. now rewrite (E _ _ v w S0 S0 H e He), (E _ _ v w Sn Sn H e He).
  - rewrite !Ssq_eq.
    rewrite (E _ _ _ _ S0 S0 (E _ _ v w S0 S0 H) e He), (E _ _ _ _ S0 S0 (E _ _ v w Sn Sn H) e He), (E _ _ _ _ Sn Sn (E _ _ v w S0 S0 H) e He), (E _ _ _ _ Sn Sn (E _ _ v w Sn Sn H) e He).
    now rewrite (E _ _ _ _ S0 Sn (E _ _ v w Sn S0 H) e He), (E _ _ _ _ Sn S0 (E _ _ v w S0 Sn H) e He).
Qed.
Section U.
Variables (norb : nat) (U : rvec -> rvec).
Hypothesis Uv : forall u v e, (forall d, u d = v d) -> U u e = U v e.
Hypothesis Ul : forall (x y : R) (u v : rvec) e, U (fun d => x * u d + y * v d) e = x * U u e + y * U v e.
Hypothesis Ut : forall o o' v e, spin norb o -> spin norb o' -> trans Rstar norb o o' (U v) e = U (trans Rstar norb o o' v) e.
Lemma spins_com A v e : In A (spins norb) -> U (A v) e = A (U v) e.
Proof.
  assert (S0 : spin norb 0) by now left. assert (Sn : spin norb norb) by now right.
  assert (T2 : forall o o' p p' w d, spin norb o -> spin norb o' -> spin norb p -> spin norb p' -> trans Rstar norb o o' (trans Rstar norb p p' (U w)) d = U (trans Rstar norb o o' (trans Rstar norb p p' w)) d).
  { intros o o' p p' w d Ho Ho' Hp Hp'. rewrite (trans_v Rstar norb o o' _ (U (trans Rstar norb p p' w)) d); [now apply Ut|]. intros f. now apply Ut. }
  intros [<-|[<-|[<-|[<-|[]]]]].
  - rewrite Sp_eq, Ut by assumption. apply Uv. intros d. exact (Sp_eq Rstar norb v d).
  - rewrite Sm_eq, Ut by assumption. apply Uv. intros d. exact (Sm_eq Rstar norb v d).
  - unfold Sz at 2. rewrite num_0, num_n, !Ut by assumption.
    rewrite (Uv _ (fun d => / 2 * trans Rstar norb 0 0 v d + - / 2 * trans Rstar norb norb norb v d) e).
    + rewrite Ul. rr.
    + intros d. unfold Sz. rewrite num_0, num_n. rr.
  - rewrite Ssq_eq, !T2 by assumption.
    set (a := trans Rstar norb 0 0 (trans Rstar norb 0 0 v)). set (b := trans Rstar norb 0 0 (trans Rstar norb norb norb v)). set (c := trans Rstar norb norb norb (trans Rstar norb 0 0 v)).
    set (d := trans Rstar norb norb norb (trans Rstar norb norb norb v)). set (f := trans Rstar norb 0 norb (trans Rstar norb norb 0 v)). set (g := trans Rstar norb norb 0 (trans Rstar norb 0 norb v)).
    rewrite (Uv _ (fun q => / 4 * (1 * a q + -1 * (1 * b q + 1 * (1 * c q + -1 * d q))) + / 2 * (1 * f q + 1 * g q)) e).
    + rewrite (Ul (/ 4) (/ 2) (fun q => 1 * a q + -1 * (1 * b q + 1 * (1 * c q + -1 * d q))) (fun q => 1 * f q + 1 * g q)).
      rewrite (Ul 1 (-1) a (fun q => 1 * b q + 1 * (1 * c q + -1 * d q))), (Ul 1 1 b (fun q => 1 * c q + -1 * d q)), (Ul 1 (-1) c d), (Ul 1 1 f g).
      generalize (U a e) (U b e) (U c e) (U d e) (U f e) (U g e). intros q1 q2 q3 q4 q5 q6.
      match goal with |- @eq _ ?a ?b => change (@eq R a b) end; cbv [Rstar s0 s1 sadd smul ssub sopp sconj car]. field.
    + intros q. rewrite Ssq_eq. fold a b c d f g. generalize (a q) (b q) (c q) (d q) (f q) (g q). intros q1 q2 q3 q4 q5 q6.
      match goal with |- @eq _ ?a ?b => change (@eq R a b) end; cbv [Rstar s0 s1 sadd smul ssub sopp sconj car]. field.
Qed.
End U.
Lemma pairs_of norb aa ii (y : list R) : Forall shaped (combine aa ii) -> Forall (fun a => length a = 1%nat) aa -> length y = length (combine aa ii) ->
  exists l, length l = length y /\ combine (flat_map (gens_of norb) (combine aa ii)) (flat_map (fun x => repeat (snd x) (length (gens_of norb (fst x)))) (combine (combine aa ii) y)) = pairs norb R l /\
    flat_map (gens_of norb) (combine aa ii) = map fst (pairs norb R l).
Proof.
  intros Sh. revert y. revert ii Sh. induction aa as [|a aa IH]; intros ii Sh y H L.
  - destruct y; [|discriminate]. exists []. auto.
  - destruct ii as [|i ii]; [destruct y; [|discriminate]; exists []; auto|]. cbn [combine] in *. inversion Sh as [|? ? [S1 S2] Sh']; subst. inversion H as [|? ? Ha H']; subst.
    destruct y as [|t y]; [discriminate|]. cbn [fst snd] in *. destruct a as [|p [|]]; try discriminate. destruct i as [|q [|]]; try discriminate.
    destruct (IH ii Sh' y H' ltac:(cbn in L; lia)) as (l & L' & E & E'). exists ((p, q, t) :: l). split; [cbn; lia|]. cbn [combine flat_map]. unfold gens_of at 1 3 5. cbn [fst snd map length repeat app combine]. rewrite E, E'. split; reflexivity.
Qed.
Lemma tab_single norb aa ii : Forall shaped (combine aa ii) -> Forall (fun a => length a = 1%nat) aa -> forall k, length (tab norb true k (combine aa ii)) = length (combine aa ii).
Proof.
  intros Sh. revert ii Sh. induction aa as [|a aa IH]; intros ii Sh H k; [reflexivity|]. destruct ii as [|i ii]; [reflexivity|]. cbn [combine tab] in *.
  inversion Sh as [|? ? _ Sh']; inversion H as [|? ? Ha H']; subst. rewrite app_length, IH by assumption. destruct a as [|p [|]]; try discriminate. reflexivity.
Qed.
Lemma pairs_valid norb (l : list (nat * nat * R)) : Forall (valid_gen norb) (map fst (pairs norb R l)) -> Forall (fits norb R) l.
Proof.
  induction l as [|[[p q] t] l IH]; intros H; [constructor|]. cbn [pairs map fst] in H. inversion H as [|? ? H1 H']; subst. inversion H' as [|? ? H2 H'']; subst.
  constructor; [|now apply IH]. unfold fits. cbn [fst snd]. destruct H1 as ((_ & _ & _ & _ & D) & _). destruct H2 as ((B1 & B2 & _) & _). cbn [fst snd] in *.
  unfold below in *. inversion B1; inversion B2; subst. split; [lia|]. split; [lia|]. intros ->. apply D. intros x. tauto.
Qed.
(** operators of singles with s2sym *)
Theorem C62_spin norb aa ii u st y tr A : init1 R 0 norb true aa ii = Ok (u, st) -> Forall (fun a => length a = 1%nat) aa -> (2 * norb < 31)%nat ->
  length y = length st -> In A (spins norb) -> commutes (set_amps R u (set_uniq R st y (u_amps R u))) tr A.
Proof.
  intros H S1 Hm L IA. destruct (set_sane _ _ _ _ _ _ (set_uniq R st y (u_amps R u)) H) as [H1 H2].
  pose proof (init1_inv _ _ _ _ _ _ _ _ H) as (Sh & Eu & Es & V & _).
  rewrite Es, tab_single in L by assumption.
  assert (Efst : map fst (combine (combine aa ii) y) = combine aa ii).
  { clear - L. revert L. generalize (combine aa ii) as g. intros g. revert y. induction g as [|x g IH]; intros [|t y] L; try discriminate; [reflexivity|]. cbn. now rewrite IH by (cbn in L; lia). }
  destruct (pairs_of norb aa ii y Sh S1 L) as (l & Ll & Ec & Eg).
  assert (Ef : facs R (set_amps R u (set_uniq R st y (u_amps R u))) = pairs norb R l).
  { unfold facs. cbn [set_amps u_gens u_amps]. rewrite <- Ec. rewrite Eu at 1. cbn [u_gens]. f_equal. rewrite Es, Eu. cbn [u_amps].
    assert (Ey : y = flat_map (fun x => repeat (snd x) (length (rows norb true 0 (fst x)))) (combine (combine aa ii) y)).
    { clear - L Sh S1. revert ii y Sh L. induction S1 as [|a aa Ha S1 IH]; intros ii y Sh L; [destruct y; [reflexivity|discriminate]|].
      destruct ii as [|i ii]; [destruct y; [reflexivity|discriminate]|]. destruct y as [|t y]; [discriminate|]. cbn [combine flat_map fst snd] in *. inversion Sh; subst.
      rewrite <- (IH ii y) by (auto; cbn in L; lia). destruct a as [|p [|]]; try discriminate. reflexivity. }
    rewrite Ey at 1. rewrite <- Efst at 1.
    rewrite set_uniq_tab by (rewrite Efst, repeat_length; lia). cbn [firstn app Nat.add]. rewrite Efst, skipn_all2 by (rewrite repeat_length; lia). now rewrite app_nil_r. }
  assert (Fi : Forall (fits norb R) l). { apply pairs_valid. rewrite <- Eg. rewrite Eu in V. exact V. }
  apply (call_commutes (2 * norb)); auto.
  - cbn [set_amps u_amps u_gens]. rewrite uniq_len, Eu. cbn [u_amps u_gens]. apply repeat_length.
  - intros v w. now apply spins_ext.
  - assert (Ok_ : Forall (fun z : gen * R => sane (2 * norb) (fst z)) (pairs norb R l)).
    { rewrite <- Ef. apply Forall_forall. intros [g t] I. apply in_combine_l in I. rewrite Forall_forall in H2. now apply H2. }
    rewrite Ef. intros v e _. apply (spins_com norb); [| |  |exact IA].
    + intros a b d Q. now apply prod_val.
    + intros a b v1 v2 d. now apply prod_lin.
    + intros o o' v1 d So So'. apply (prod_pairs Rstar norb R cos sin pythR l Fi o o' v1 d So So').
Qed.
(** states with a given number of electrons or a given spin keep it *)
Lemma lam_0 (lam x : R) : lam * x = lam * x + 0 * x. Proof. ring. Qed.
Lemma eigen (u : uop R) tr A (lam : R) psi : (u_norb R u < 31)%nat -> Forall (sane (u_norb R u)) (u_gens R u) -> length (u_amps R u) = length (u_gens R u) -> commutes u tr A ->
  (forall v w, veq (u_norb R u) v w -> veq (u_norb R u) (A v) (A w)) -> veq (u_norb R u) (A psi) (fun d => lam * psi d) ->
  exists r, call u true tr psi = Ok r /\ veq (u_norb R u) (A r) (fun d => lam * r d).
Proof.
  intros Hm Us Ul C Ext Ev. destruct (C psi) as (r & r' & E & E' & V). exists r. split; [exact E|]. set (m := u_norb R u) in *.
  destruct (call_ok Rstar is0 is0_ok sched sched_ok R my_amp cos sin my_cos my_sin m Hm u eq_refl Us Ul tr psi psi (veq_refl _ _ _)) as [s [F W]].
  destruct (call_ok Rstar is0 is0_ok sched sched_ok R my_amp cos sin my_cos my_sin m Hm u eq_refl Us Ul tr (A psi) _ Ev) as [s' [F' W']].
  rewrite E in F. injection F as <-. rewrite E' in F'. injection F' as <-. apply veq_sym in V. apply (veq_trans _ _ _ _ _ V). apply (veq_trans _ _ _ _ _ W'). clear V W' E E'.
  assert (Ok_ : Forall (fun y : gen * R => sane m (fst y)) (facs R u)).
  { apply Forall_forall. intros [g t] H. apply in_combine_l in H. rewrite Forall_forall in Us. now apply Us. }
  assert (Q : forall l, Forall (fun y : gen * R => sane m (fst y)) l -> forall e, prodR m l (fun d => lam * psi d) e = lam * prodR m l psi e).
  { intros l Hl e. rewrite (prod_val m l Hl _ (fun d => lam * psi d + 0 * psi d) (fun d => lam_0 lam (psi d)) e), (prod_lin m l Hl). rr. }
  intros e He. rewrite (W e He). destruct tr.
  - rewrite !prod_true. apply Q. apply neg_sane. now apply Forall_rev.
  - now apply Q.
Qed.
Theorem C62_electrons norb s2sym aa ii u st x tr lo k psi : init1 R 0 norb s2sym aa ii = Ok (u, st) -> (2 * norb < 31)%nat -> length x = length (u_gens R u) ->
  lo = 0%nat \/ lo = norb -> veq (2 * norb) (num Rstar norb lo psi) (fun d => INR k * psi d) ->
  exists r, call (set_amps R u x) true tr psi = Ok r /\ veq (2 * norb) (num Rstar norb lo r) (fun d => INR k * r d).
Proof.
  intros H Hm L Lo E. destruct (set_sane _ _ _ _ _ _ x H) as [H1 H2].
  pose proof (eigen (set_amps R u x) tr (num Rstar norb lo) (INR k) psi) as G. rewrite H1 in G. apply G; auto.
  - eapply C62_numbers; eassumption.
  - intros v w. apply num_ext.
Qed.
Theorem C62_multiplet norb aa ii u st y tr A lam psi : init1 R 0 norb true aa ii = Ok (u, st) -> Forall (fun a => length a = 1%nat) aa -> (2 * norb < 31)%nat ->
  length y = length st -> In A (spins norb) -> veq (2 * norb) (A psi) (fun d => lam * psi d) ->
  exists r, call (set_amps R u (set_uniq R st y (u_amps R u))) true tr psi = Ok r /\ veq (2 * norb) (A r) (fun d => lam * r d).
Proof.
  intros H S1 Hm L IA E. destruct (set_sane _ _ _ _ _ _ (set_uniq R st y (u_amps R u)) H) as [H1 H2]. pose proof (init1_inv _ _ _ _ _ _ _ _ H) as (_ & Eu & _).
  pose proof (eigen (set_amps R u (set_uniq R st y (u_amps R u))) tr A lam psi) as G. rewrite H1 in G. apply G; auto.
  - cbn [set_amps u_amps u_gens]. rewrite uniq_len, Eu. cbn [u_amps u_gens]. apply repeat_length.
  - eapply C62_spin; eassumption.
  - intros v w. now apply spins_ext.
Qed.
End C62.

Module Ex2.
Import QArith Qcanon PropUcc.Ex.
Local Open Scope Qc_scope.
Definition half : Qstar := q 1 2.
Definition S2 (norb : nat) (r : res (N -> Qstar)) : res (N -> Qstar) := do v <- r ;; Ok (Ssquare Qstar half norb v).
Definition uQ (l : res (uop ang * list (list nat))) (y : list ang) : uop ang :=
  match l with Ok (u, st) => set_amps ang u (set_uniq ang st y (u_amps ang u)) | Raise _ => mkU ang 0 [] [] end.
(** two electrons of opposite spin in orbital 0 of two: a singlet before and after *)
Definition us := uQ (get_uccs_op ang t0 2 None None) [t34].
Example singles_ex : dump 4 (callQ us true false (det 5)) = [(5%N, 9 # 25); (6%N, 12 # 25); (9%N, 12 # 25); (10%N, 16 # 25)]%Q /\
  dump 4 (S2 2 (callQ us true false (det 5))) = [].
Proof. split; vm_compute; reflexivity. Qed.
(** without s2sym the two spins may be rotated differently, and the singlet is lost *)
Definition un := uQ (init1 ang t0 2 false [[1]]%nat [[0]]%nat) [t34; t0].
Example broken_ex : dump 4 (callQ un true false (det 5)) = [(5%N, 3 # 5); (6%N, 4 # 5)]%Q /\
  dump 4 (S2 2 (callQ un true false (det 5))) = [(6%N, 4 # 5); (9%N, (-4) # 5)]%Q.
Proof. split; vm_compute; reflexivity. Qed.
(** doubles break the spin symmetry also with s2sym, as documented; numbers of electrons stay *)
Definition ud := uQ (get_uccsd_op ang t0 2 None true) [t0; t0; t34; t0; t0; t0; t0].
Example doubles_ex : dump 4 (callQ ud true false (det 5)) = [(5%N, 3 # 5); (6%N, 4 # 5)]%Q /\
  dump 4 (S2 2 (callQ ud true false (det 5))) = [(6%N, 4 # 5); (9%N, (-4) # 5)]%Q.
Proof. split; vm_compute; reflexivity. Qed.
End Ex2.

Print Assumptions C62_numbers. Print Assumptions C62_spin. Print Assumptions C62_electrons. Print Assumptions C62_multiplet.
