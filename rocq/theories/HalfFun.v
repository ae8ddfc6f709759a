(** The functions of fci/rdm.py return the matrix elements of their operators. *)
From Coq Require Import List ZArith NArith Arith Bool Lia Ring Btauto.
From Verif Require Import Base Star FockSpec FockFacts FockOps LprodSpec LasFock LasElem DetModel DetFacts DetDummy CrunchModel CrunchSpec CrunchFacts CrunchAll HalfSpec HalfModel HalfFacts.
Import ListNotations.
Local Open Scope nat_scope.

Section Fun.
  Context {K : star_ring}.
  Add Ring Kr : (sring K).
  Notation mat := (DetModel.mat K).
  Lemma link_ok m a : link_width (m + 1) a = (Z.of_nat a * (Z.of_nat m - Z.of_nat a + 2))%Z.
  Proof. unfold link_width. lia. Qed.
  Lemma check_ok {A} m (ne : nat * nat) (k : res A) : check_links (m + 1, ne) m ne k = k.
  Proof. unfold check_links, widths. cbn [fst snd]. rewrite !link_ok, !Z.eqb_refl. reflexivity. Qed.

  Lemma melem2_adj n nb nk (bra ket : mat) ops : (forall x : K, sconj x = x) -> Forall (ok0 n) ops ->
    melem2 n nb nk bra ket ops = melem2 n nk nb ket bra (rev (map flip ops)).
  Proof.
    intros Hr H. unfold melem2. rewrite (inner_swap K (2 * n)), Hr. apply (lops_adj K (fun _ => n) 0). apply Forall_forall. intros x Hx. rewrite Forall_forall in H. destruct (H x Hx). split; auto.
  Qed.
  (** a' b = - b a' and so on for the first two operators *)
  Lemma melem2_lin n nb nk (bra ket : mat) o1 o2 o3 (c : K) : (forall d, lops K (fun _ => n) o1 (civec n nk ket) d = sadd (lops K (fun _ => n) o2 (civec n nk ket) d) (smul c (lops K (fun _ => n) o3 (civec n nk ket) d))) ->
    melem2 n nb nk bra ket o1 = sadd (melem2 n nb nk bra ket o2) (smul c (melem2 n nb nk bra ket o3)).
  Proof.
    intros H. unfold melem2, inner. rewrite bsum_mul_l, <- bsum_add. apply bsum_ext. intros d _. rewrite H. ring.
  Qed.
  Lemma melem2_anti n nb nk (bra ket : mat) o1 o2 : (forall d, lops K (fun _ => n) o1 (civec n nk ket) d = sopp (lops K (fun _ => n) o2 (civec n nk ket) d)) ->
    melem2 n nb nk bra ket o1 = sopp (melem2 n nb nk bra ket o2).
  Proof. intros H. rewrite (melem2_lin n nb nk bra ket o1 o2 o2 (sopp (sadd s1 s1))); [ring|]. intros d. rewrite H. ring. Qed.

  Lemma lorb_lt2 n dn l : l < n -> lorb (fun _ => n) 0 dn l < 2 * n.
  Proof. unfold lorb. destruct dn; lia. Qed.
  Lemma reordered n ne (bra ket : mat) s p q r t : p < n -> q < n -> r < n -> t < n ->
    snd (reorder_rdm (make_rdm12_par s bra ket n ne)) [p; q; r; t] = melem n ne bra ket [cr s (0, p); cr s (0, r); an s (0, t); an s (0, q)].
  Proof.
    intros Hp Hq Hr Ht. cbn [reorder_rdm make_rdm12_par fst snd nth]. unfold make_rdm1_spin1, ix. cbn [nth].
    change (melem n ne bra ket) with (melem2 n ne ne bra ket).
    pose proof (lorb_lt2 n (down s) _ Hp) as Lp. pose proof (lorb_lt2 n (down s) _ Hq) as Lq. pose proof (lorb_lt2 n (down s) _ Hr) as Lr. pose proof (lorb_lt2 n (down s) _ Ht) as Lt.
    rewrite (melem2_lin n ne ne bra ket [cr s (0, p); an s (0, q); cr s (0, r); an s (0, t)] [cr s (0, p); cr s (0, r); an s (0, t); an s (0, q)] [cr s (0, p); an s (0, t)] (if q =? r then s1 else s0)).
    { destruct (q =? r); ring. }
    intros d. cbn [lops fold_right cr an fst snd field].
    set (v := civec n ne ket). set (P := lorb (fun _ => n) 0 (down s) p) in *. set (Q := lorb (fun _ => n) 0 (down s) q) in *. set (R' := lorb (fun _ => n) 0 (down s) r) in *. set (T := lorb (fun _ => n) 0 (down s) t) in *.
    assert (E : forall e, ann K (2 * n) Q (cre K (2 * n) R' (ann K (2 * n) T v)) e = sadd (cre K (2 * n) R' (ann K (2 * n) T (ann K (2 * n) Q v)) e) (smul (if q =? r then s1 else s0) (ann K (2 * n) T v e))).
    { intros e. pose proof (ann_cre K (2 * n) Q R' (ann K (2 * n) T v) e Lq Lr) as A.
      assert (EQ : (Q =? R') = (q =? r)). { unfold Q, R', lorb. destruct (down s); destruct (Nat.eqb_spec q r) as [->|]; rewrite ?Nat.eqb_refl; auto; apply Nat.eqb_neq; lia. }
      rewrite EQ in A.
      assert (B : cre K (2 * n) R' (ann K (2 * n) Q (ann K (2 * n) T v)) e = sopp (cre K (2 * n) R' (ann K (2 * n) T (ann K (2 * n) Q v)) e)).
      { unfold cre. destruct (bt e R'); [|ring]. rewrite (ann_ann K (2 * n) Q T v _ Lq Lt). unfold sg. destruct (above _ _ _); ring. }
      rewrite B in A. destruct (q =? r).
      - replace (ann K (2 * n) Q (cre K (2 * n) R' (ann K (2 * n) T v)) e) with (sadd (sadd (ann K (2 * n) Q (cre K (2 * n) R' (ann K (2 * n) T v)) e) (sopp (cre K (2 * n) R' (ann K (2 * n) T (ann K (2 * n) Q v)) e))) (cre K (2 * n) R' (ann K (2 * n) T (ann K (2 * n) Q v)) e)) by ring. rewrite A. ring.
      - replace (ann K (2 * n) Q (cre K (2 * n) R' (ann K (2 * n) T v)) e) with (sadd (sadd (ann K (2 * n) Q (cre K (2 * n) R' (ann K (2 * n) T v)) e) (sopp (cre K (2 * n) R' (ann K (2 * n) T (ann K (2 * n) Q v)) e))) (cre K (2 * n) R' (ann K (2 * n) T (ann K (2 * n) Q v)) e)) by ring. rewrite A. ring. }
    unfold cre at 1 3 5. destruct (bt d P); [|ring]. rewrite E. unfold sg. destruct (above _ _ _); ring.
  Qed.
  (** operators of different spins anticommute *)
  Lemma spin_swap n nb nk (bra ket : mat) p q : p < n -> q < n -> melem2 n nb nk bra ket [an 0 (0, p); cr 1 (0, q)] = sopp (melem2 n nb nk bra ket [cr 1 (0, q); an 0 (0, p)]).
  Proof.
    intros Hp Hq. apply melem2_anti. intros d. cbn [lops fold_right cr an fst snd field].
    pose proof (ann_cre K (2 * n) (lorb (fun _ => n) 0 (down 0) p) (lorb (fun _ => n) 0 (down 1) q) (civec n nk ket) d (lorb_lt2 _ _ _ Hp) (lorb_lt2 _ _ _ Hq)) as A.
    assert (E : (lorb (fun _ => n) 0 (down 0) p =? lorb (fun _ => n) 0 (down 1) q) = false) by (apply Nat.eqb_neq; unfold lorb; cbn; lia). rewrite E in A.
    match type of A with sadd ?x ?y = _ => transitivity (sadd (sadd x y) (sopp y)); [ring|rewrite A; ring] end.
  Qed.

  Lemma stepK m N nb nk (bra ket : mat) pa pb qa qb ops : N = (fst nb + b2n pa, snd nb + b2n pb) -> N = (fst nk + b2n qa, snd nk + b2n qb) -> Forall (ok0 (m + 1)) ops ->
    melem (m + 1) N (add1 bra m nb pa pb) (add1 ket m nk qa qb) ops =
    sg K (dsign (xorb qa qb) (map opfrag (map (tof m) ops))) (smul (melem2 m nb nk bra ket (at_frag 0 (map (tof m) ops))) (dumel pa pb qa qb (map (fun x => (fst x, (0, snd (fst (snd x)), snd (snd x)))) (at_frag 1 (map (tof m) ops))))).
  Proof. intros E1 E2 H. rewrite <- step by auto. rewrite <- E1, <- E2. reflexivity. Qed.
  Lemma dumel_list : sconj s1 = @s1 K ->
    (@dumel K false false true false [an 0 (0, 0)] = s1) /\ (@dumel K false false false true [an 1 (0, 0)] = s1) /\ (@dumel K true false false false [cr 0 (0, 0)] = s1) /\ (@dumel K false true false false [cr 1 (0, 0)] = s1) /\
    (@dumel K true false false true [cr 0 (0, 0); an 1 (0, 0)] = s1) /\ (@dumel K false false true true [an 0 (0, 0); an 1 (0, 0)] = sopp s1).
  Proof. intros E. repeat split; cbv -[car s0 s1 sadd smul sopp ssub sconj]; rewrite ?E, ?sconj_0; ring. Qed.

  Hypothesis real : forall x : K, sconj x = x.
  Notation o0 := (fun p : nat => (0, p)) (only parsing).
  Lemma neq m p : p < m -> (p =? m) = false.
  Proof. intros H. apply Nat.eqb_neq. lia. Qed.
  Lemma ok_m m x dn p : p <= m -> ok0 (m + 1) (x, (0, dn, p)).
  Proof. split; cbn; [reflexivity|lia]. Qed.
  Ltac okl := repeat (apply Forall_cons; [split; cbn; [reflexivity|lia]|]); try apply Forall_nil.
  Ltac okn := repeat (apply Forall_cons; [split; cbn; [reflexivity|lia]|]); try apply Forall_nil.
  Ltac fin := cbn [map tof cr an fst snd]; rewrite ?Nat.eqb_refl; repeat match goal with |- context [?x =? ?y] => rewrite (neq y x) by lia end; cbn [map at_frag filter opfrag fst snd Nat.eqb].
  Ltac rg := unfold sg, flip, cr, an, down; cbn [fst snd Nat.eqb negb]; ring.
  Lemma k_1 s m nk (bra ket : mat) r : s < 2 -> r < m ->
    make_rdm1_spin1 s (add1 bra m (raise_nelec s nk) false false) (add1 ket m nk (s =? 0) (negb (s =? 0))) (m + 1) (raise_nelec s nk) [m; r] = melem2 m (raise_nelec s nk) nk bra ket [cr s (0, r)].
  Proof.
    intros Hs Hr. unfold make_rdm1_spin1, ix. cbn [nth]. destruct (dumel_list (real s1)) as (A & B & _).
    rewrite stepK; [|unfold raise_nelec; destruct (s =? 0); cbn [fst snd b2n negb]; f_equal; lia|unfold raise_nelec; destruct (s =? 0); cbn [fst snd b2n negb]; f_equal; lia|okl].
    destruct s as [|[|s]]; [| |lia]; fin; cbn [Nat.eqb negb xorb down].
    - change (dumel _ _ _ _ _) with (@dumel K false false true false [an 0 (0, 0)]). rewrite A. change (dsign _ _) with false. rg.
    - change (dumel _ _ _ _ _) with (@dumel K false false false true [an 1 (0, 0)]). rewrite B. change (dsign _ _) with false. rg.
  Qed.
  Lemma k_par s m nk (bra ket : mat) r p q : s < 2 -> r < m -> p < m -> q < m ->
    snd (reorder_rdm (make_rdm12_par s (add1 bra m (raise_nelec s nk) false false) (add1 ket m nk (s =? 0) (negb (s =? 0))) (m + 1) (raise_nelec s nk))) [r; m; p; q] =
    melem2 m (raise_nelec s nk) nk bra ket [cr s (0, r); cr s (0, p); an s (0, q)].
  Proof.
    intros Hs Hr Hp Hq. destruct (dumel_list (real s1)) as (A & B & _). rewrite reordered by lia.
    rewrite stepK; [|unfold raise_nelec; destruct (s =? 0); cbn [fst snd b2n negb]; f_equal; lia|unfold raise_nelec; destruct (s =? 0); cbn [fst snd b2n negb]; f_equal; lia|okl].
    destruct s as [|[|s]]; [| |lia]; fin; cbn [Nat.eqb negb xorb down].
    - change (dumel _ _ _ _ _) with (@dumel K false false true false [an 0 (0, 0)]). rewrite A. change (dsign _ _) with false. rg.
    - change (dumel _ _ _ _ _) with (@dumel K false false false true [an 1 (0, 0)]). rewrite B. change (dsign _ _) with false. rg.
  Qed.
  Lemma k_ab0 m nk (bra ket : mat) r p q : r < m -> p < m -> q < m ->
    make_rdm12_ab (add1 bra m (raise_nelec 0 nk) false false) (add1 ket m nk true false) (m + 1) (raise_nelec 0 nk) [r; m; p; q] =
    melem2 m (raise_nelec 0 nk) nk bra ket [cr 0 (0, r); cr 1 (0, p); an 1 (0, q)].
  Proof.
    intros Hr Hp Hq. destruct (dumel_list (real s1)) as (A & _). unfold make_rdm12_ab, ix. cbn [nth].
    rewrite stepK; [|cbn; f_equal; lia|cbn; f_equal; lia|okl]. fin.
    change (dumel _ _ _ _ _) with (@dumel K false false true false [an 0 (0, 0)]). rewrite A. change (dsign _ _) with false. rg.
  Qed.
  Lemma k_ab1 m nk (bra ket : mat) r p q : r < m -> p < m -> q < m ->
    make_rdm12_ab (add1 ket m nk false true) (add1 bra m (raise_nelec 1 nk) false false) (m + 1) (raise_nelec 1 nk) [q; p; m; r] =
    melem2 m (raise_nelec 1 nk) nk bra ket [cr 1 (0, r); cr 0 (0, p); an 0 (0, q)].
  Proof.
    intros Hr Hp Hq. destruct (dumel_list (real s1)) as (_ & _ & _ & A & _). unfold make_rdm12_ab, ix. cbn [nth].
    rewrite stepK; [|cbn; f_equal; lia|cbn; f_equal; lia|okl]. fin.
    change (dumel _ _ _ _ _) with (@dumel K false true false false [cr 1 (0, 0)]). rewrite A. change (dsign _ _) with false. unfold sg.
    rewrite (melem2_adj m (raise_nelec 1 nk) nk) by (auto; okn). cbn [map flip rev app cr an fst snd negb]. rg.
  Qed.
  Lemma melem2_swap m nb nk (u v : mat) l l' : Forall (ok0 m) l -> rev (map flip l) = l' -> melem2 m nb nk u v l = melem2 m nk nb v u l'.
  Proof. intros H <-. now apply melem2_adj. Qed.

  Lemma raise_lower s (ne : nat * nat) : s < 2 -> 0 < (if s =? 0 then fst ne else snd ne) -> raise_nelec s (lower_nelec s ne) = ne.
  Proof. destruct ne as [a b]. unfold raise_nelec, lower_nelec. destruct (s =? 0); cbn [fst snd]; intros _ H; f_equal; lia. Qed.

  (** <bra| r' |ket>, <bra| r' p' q |ket> *)
  Lemma rdm13_cre s m nk (bra ket : mat) link : s < 2 -> (link = None \/ link = Some (m + 1, raise_nelec s nk)) ->
    exists h a b, trans_rdm13hs true bra ket m nk s link = Ok (h, a, b) /\
      (forall r, r < m -> h [r] = melem2 m (raise_nelec s nk) nk bra ket [cr s (0, r)]) /\
      (forall r p q, r < m -> p < m -> q < m -> a [r; p; q] = melem2 m (raise_nelec s nk) nk bra ket [cr s (0, r); cr 0 (0, p); an 0 (0, q)]) /\
      (forall r p q, r < m -> p < m -> q < m -> b [r; p; q] = melem2 m (raise_nelec s nk) nk bra ket [cr s (0, r); cr 1 (0, p); an 1 (0, q)]).
  Proof.
    intros Hs Hl. unfold trans_rdm13hs. assert (U : unpack_links (m + 1) (raise_nelec s nk) link = (m + 1, raise_nelec s nk)) by (destruct Hl as [->| ->]; reflexivity).
    rewrite U, check_ok. destruct s as [|[|s]]; [| |lia]; cbn [Nat.eqb negb]; do 3 eexists; (split; [reflexivity|]).
    - split; [intros r Hr; exact (k_1 0 m nk bra ket r Hs Hr)|]. split; intros r p q Hr Hp Hq; [exact (k_par 0 m nk bra ket r p q Hs Hr Hp Hq)|exact (k_ab0 m nk bra ket r p q Hr Hp Hq)].
    - split; [intros r Hr; exact (k_1 1 m nk bra ket r Hs Hr)|]. split; intros r p q Hr Hp Hq; [exact (k_ab1 m nk bra ket r p q Hr Hp Hq)|exact (k_par 1 m nk bra ket r p q Hs Hr Hp Hq)].
  Qed.
  Lemma des_of s m nk (bra ket : mat) link : trans_rdm13hs false bra ket m nk s link =
    do x <- trans_rdm13hs true ket bra m (lower_nelec s nk) s link ;; Ok (aconj (fst (fst x)), tpose [0; 2; 1] (aconj (snd (fst x))), tpose [0; 2; 1] (aconj (snd x))).
  Proof. unfold trans_rdm13hs, check_links, py_assert. destruct (_ && _); [|reflexivity]. destruct (reorder_rdm _) as [d1 d2]. destruct (s =? 0); reflexivity. Qed.
  (** <bra| r |ket>, <bra| p' q r |ket> *)
  Lemma rdm13_des s m nk (bra ket : mat) link : s < 2 -> 0 < (if s =? 0 then fst nk else snd nk) -> (link = None \/ link = Some (m + 1, nk)) ->
    exists h a b, trans_rdm13hs false bra ket m nk s link = Ok (h, a, b) /\
      (forall r, r < m -> h [r] = melem2 m (lower_nelec s nk) nk bra ket [an s (0, r)]) /\
      (forall r p q, r < m -> p < m -> q < m -> a [r; p; q] = melem2 m (lower_nelec s nk) nk bra ket [cr 0 (0, p); an 0 (0, q); an s (0, r)]) /\
      (forall r p q, r < m -> p < m -> q < m -> b [r; p; q] = melem2 m (lower_nelec s nk) nk bra ket [cr 1 (0, p); an 1 (0, q); an s (0, r)]).
  Proof.
    intros Hs Hn Hl. pose proof (raise_lower s nk Hs Hn) as E. destruct (rdm13_cre s m (lower_nelec s nk) ket bra link Hs) as (h & a & b & R1 & R2 & R3 & R4); [rewrite E; exact Hl|].
    exists (aconj h), (tpose [0; 2; 1] (aconj a)), (tpose [0; 2; 1] (aconj b)). split; [|split; [|split]].
    - rewrite des_of, R1. reflexivity.
    - intros r Hr. unfold aconj. rewrite real, R2 by auto. rewrite E. apply melem2_swap; [okn|reflexivity].
    - intros r p q Hr Hp Hq. unfold tpose, aconj. cbn [axis length seq map nth Nat.eqb]. rewrite real, R3 by auto. rewrite E. apply melem2_swap; [okn|reflexivity].
    - intros r p q Hr Hp Hq. unfold tpose, aconj. cbn [axis length seq map nth Nat.eqb]. rewrite real, R4 by auto. rewrite E. apply melem2_swap; [okn|reflexivity].
  Qed.
  (** trans_rdm1hs returns the first of the three *)
  Lemma rdm1_cre s m nk (bra ket : mat) link : s < 2 -> (link = None \/ link = Some (m + 1, raise_nelec s nk)) ->
    exists h, trans_rdm1hs true bra ket m nk s link = Ok h /\ forall r, r < m -> h [r] = melem2 m (raise_nelec s nk) nk bra ket [cr s (0, r)].
  Proof.
    intros Hs Hl. unfold trans_rdm1hs. assert (U : unpack_links (m + 1) (raise_nelec s nk) link = (m + 1, raise_nelec s nk)) by (destruct Hl as [->| ->]; reflexivity).
    rewrite U, check_ok. eexists. split; [reflexivity|]. intros r Hr. exact (k_1 s m nk bra ket r Hs Hr).
  Qed.
  Lemma rdm1_des s m nk (bra ket : mat) link : s < 2 -> 0 < (if s =? 0 then fst nk else snd nk) -> (link = None \/ link = Some (m + 1, nk)) ->
    exists h, trans_rdm1hs false bra ket m nk s link = Ok h /\ forall r, r < m -> h [r] = melem2 m (lower_nelec s nk) nk bra ket [an s (0, r)].
  Proof.
    intros Hs Hn Hl. unfold trans_rdm1hs. pose proof (raise_lower s nk Hs Hn) as E. rewrite E. assert (U : unpack_links (m + 1) nk link = (m + 1, nk)) by (destruct Hl as [->| ->]; reflexivity).
    rewrite U, check_ok. eexists. split; [reflexivity|]. intros r Hr. unfold aconj. cbn [nth]. rewrite real.
    pose proof (k_1 s m (lower_nelec s nk) ket bra r Hs Hr) as Q. rewrite E in Q. rewrite Q. apply melem2_swap; [okn|reflexivity].
  Qed.
  (** <bra| p'(up) q(down) |ket> *)
  Lemma sfu m nk (bra ket : mat) link : 0 < snd nk -> (link = None \/ link = Some (m + 1, (fst nk + 1, snd nk))) ->
    exists x, trans_sfudm1 bra ket m nk link = Ok x /\ forall p q, p < m -> q < m -> x [p; q] = melem2 m (fst nk + 1, snd nk - 1) nk bra ket [cr 0 (0, p); an 1 (0, q)].
  Proof.
    intros Hn Hl. unfold trans_sfudm1. cbn [raise_nelec lower_nelec Nat.eqb fst snd].
    assert (U : unpack_links (m + 1) (fst nk + 1, snd nk) link = (m + 1, (fst nk + 1, snd nk))) by (destruct Hl as [->| ->]; reflexivity).
    rewrite U, check_ok. eexists. split; [reflexivity|]. intros p q Hp Hq. cbn [nth]. destruct (dumel_list (real s1)) as (_ & _ & _ & _ & A & _).
    unfold make_rdm12_ab, ix. cbn [nth]. rewrite stepK; [|cbn; f_equal; lia|cbn; f_equal; lia|okl]. fin.
    change (dumel _ _ _ _ _) with (@dumel K true false false true [cr 0 (0, 0); an 1 (0, 0)]). rewrite A. change (dsign _ _) with false. unfold sg.
    change [(false, (0, down 0, p)); (true, (0, down 1, q))] with [an 0 (0, p); cr 1 (0, q)]. rewrite spin_swap by auto.
    rewrite (melem2_swap m nk (fst nk + 1, snd nk - 1) ket bra [cr 1 (0, q); an 0 (0, p)] [cr 0 (0, p); an 1 (0, q)]) by (try reflexivity; okn). ring.
  Qed.
  (** <bra| p'(down) q(up) |ket> *)
  Lemma sfd m nk (bra ket : mat) link : 0 < fst nk -> (link = None \/ link = Some (m + 1, (fst nk, snd nk + 1))) ->
    exists x, trans_sfddm1 bra ket m nk link = Ok x /\ forall p q, p < m -> q < m -> x [p; q] = melem2 m (fst nk - 1, snd nk + 1) nk bra ket [cr 1 (0, p); an 0 (0, q)].
  Proof.
    intros Hn Hl. unfold trans_sfddm1. cbn [raise_nelec lower_nelec Nat.eqb fst snd].
    destruct (sfu m (fst nk - 1, snd nk + 1) ket bra link) as (x & E & Hx); [cbn; lia|cbn [fst snd]; replace (fst nk - 1 + 1) with (fst nk) by lia; exact Hl|].
    rewrite E. cbn [bind]. eexists. split; [reflexivity|]. intros p q Hp Hq. unfold tpose, aconj. cbn [axis length seq map nth Nat.eqb]. rewrite real, Hx by auto. cbn [fst snd].
    replace (fst nk - 1 + 1, snd nk + 1 - 1) with nk by (destruct nk; cbn in *; f_equal; lia). apply melem2_swap; [okn|reflexivity].
  Qed.
  Definition pp1 (spin : nat) : nat := if 1 <? spin then 1 else 0.
  Definition pp2 (spin : nat) : nat := if 0 <? spin then 1 else 0.
  (** <bra| p' q' |ket>, spins up-up, up-down, down-down *)
  Lemma ppdm c m nk (bra ket : mat) link : c < 3 -> (link = None \/ link = Some (m + (2 - c mod 2), raise_nelec (pp2 c) (raise_nelec (pp1 c) nk))) ->
    exists x, trans_ppdm bra ket m nk c link = Ok x /\ forall p q, p < m -> q < m -> x [p; q] = melem2 m (raise_nelec (pp2 c) (raise_nelec (pp1 c) nk)) nk bra ket [cr (pp1 c) (0, p); cr (pp2 c) (0, q)].
  Proof.
    intros Hc Hl. unfold trans_ppdm. fold (pp1 c) (pp2 c). set (N := raise_nelec (pp2 c) (raise_nelec (pp1 c) nk)) in *.
    assert (U : unpack_links (m + (2 - c mod 2)) N link = (m + (2 - c mod 2), N)) by (destruct Hl as [->| ->]; reflexivity). rewrite U.
    assert (W : forall a, (link_width (m + (2 - c mod 2)) a =? Z.of_nat a * (Z.of_nat m + Z.of_nat (2 - c mod 2) - Z.of_nat a + 1))%Z = true) by (intros a; apply Z.eqb_eq; unfold link_width; lia).
    unfold widths. cbn [fst snd]. rewrite !W. cbn [py_assert]. destruct (dumel_list (real s1)) as (A & B & _ & _ & _ & C).
    destruct c as [|[|[|c]]]; [| | |lia]; cbn [Nat.modulo Nat.divmod Nat.sub fst snd seq fold_left Nat.eqb Nat.ltb Nat.leb b2n pp1 pp2]; (eexists; split; [reflexivity|]); intros p q Hp Hq; cbn [nth].
    - rewrite Nat.add_0_r. replace (m + 2) with (m + 1 + 1) by lia. replace (m + 1 + 1 - 1) with (m + 1) by lia. rewrite reordered by lia.
      rewrite (stepK (m + 1)); [|subst N; cbn; f_equal; lia|subst N; cbn; f_equal; lia|okl]. fin.
      change (dumel _ _ _ _ _) with (@dumel K false false true false [an 0 (0, 0)]). rewrite A. change (dsign _ _) with false. unfold sg.
      assert (EN : N = (fst nk + b2n true + 1, snd nk + b2n false + 0)) by (subst N; cbn; f_equal; lia).
      replace N with (fst N + b2n false, snd N + b2n false) at 1 by (destruct N; cbn; f_equal; lia).
      change (fst nk + 1, snd nk + 0) with (fst nk + b2n true, snd nk + b2n false).
      rewrite step by okl. fin. change (dumel _ _ _ _ _) with (@dumel K false false true false [an 0 (0, 0)]). rewrite A. change (dsign _ _) with false. rg.
    - rewrite Nat.add_0_r. replace (m + 1 - 1) with m by lia. unfold make_rdm12_ab, ix. cbn [nth].
      rewrite stepK; [|subst N; cbn; f_equal; lia|subst N; cbn; f_equal; lia|okl]. fin.
      change (dumel _ _ _ _ _) with (@dumel K false false true true [an 0 (0, 0); an 1 (0, 0)]). rewrite C. change (dsign _ _) with true. rg.
    - rewrite Nat.add_0_r. replace (m + 2) with (m + 1 + 1) by lia. replace (m + 1 + 1 - 1) with (m + 1) by lia. rewrite reordered by lia.
      rewrite (stepK (m + 1)); [|subst N; cbn; f_equal; lia|subst N; cbn; f_equal; lia|okl]. fin.
      change (dumel _ _ _ _ _) with (@dumel K false false false true [an 1 (0, 0)]). rewrite B. change (dsign _ _) with false. unfold sg.
      replace N with (fst N + b2n false, snd N + b2n false) at 1 by (destruct N; cbn; f_equal; lia).
      change (fst nk + 0, snd nk + 1) with (fst nk + b2n false, snd nk + b2n true).
      rewrite step by okl. fin. change (dumel _ _ _ _ _) with (@dumel K false false false true [an 1 (0, 0)]). rewrite B. change (dsign _ _) with false. rg.
  Qed.
  (** <bra| p q |ket>, spins up-up, down-up, down-down *)
  Lemma hhdm c m nk (bra ket : mat) link : c < 3 -> 2 - c <= fst nk -> c <= snd nk -> (link = None \/ link = Some (m + (2 - c mod 2), nk)) ->
    exists x, trans_hhdm bra ket m nk c link = Ok x /\ forall p q, p < m -> q < m -> x [p; q] = melem2 m (fst nk - (2 - c), snd nk - c) nk bra ket [an (c - c / 2) (0, p); an (c / 2) (0, q)].
  Proof.
    intros Hc Ha Hb Hl. unfold trans_hhdm. fold (pp1 c) (pp2 c).
    assert (L : lower_nelec (pp2 c) (lower_nelec (pp1 c) nk) = (fst nk - (2 - c), snd nk - c)) by (destruct c as [|[|[|c]]]; [| | |lia]; cbn; f_equal; lia). rewrite L.
    assert (R : raise_nelec (pp2 c) (raise_nelec (pp1 c) (fst nk - (2 - c), snd nk - c)) = nk) by (destruct nk; destruct c as [|[|[|c]]]; [| | |lia]; cbn in *; f_equal; lia).
    destruct (ppdm c m (fst nk - (2 - c), snd nk - c) ket bra link Hc) as (x & E & Hx); [rewrite R; exact Hl|]. rewrite E. cbn [bind]. eexists. split; [reflexivity|].
    intros p q Hp Hq. unfold tpose, aconj. cbn [axis length seq map nth Nat.eqb]. rewrite real, Hx by auto. rewrite R. apply melem2_swap; [okn|]. destruct c as [|[|[|c]]]; [| | |lia]; reflexivity.
  Qed.
End Fun.
