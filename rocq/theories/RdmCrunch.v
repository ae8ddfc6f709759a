(** The crunchers of LRRDM. *)
From Coq Require Import List ZArith Bool Arith Lia Permutation Ring.
From Verif Require Import Base BaseFacts Star AddrModel AddrFacts AddrSpec AddrProofs ExcModel UexcModel StdmModel StdmFacts SignsModel CrunchModel HamModel HamLoop RdmModel RdmSums RdmFdm RdmPart RdmLin.
Import ListNotations.
Local Open Scope nat_scope.

Section Tables.
  Context {K : star_ring}.
  Notation arr := (@arr K).
  Variables (lroots : list (list nat)) (ints : nat -> @fmats K) (uroot : nat -> nat -> nat).
  Variables bra ket f : nat.
  Notation nb := (nl lroots f bra).
  Notation nk := (nl lroots f ket).
  (** the element of a table at local states x, y *)
  Definition is_table (m : nat) (t : arr) (g : state -> state -> res arr) : Prop :=
    forall e e' r, nth f e 0 < nb -> nth f e' 0 < nk -> length r = m -> t (nth f e 0 :: nth f e' 0 :: r) = val (g (bra, e) (ket, e')) r.
  Definition defined (g : state -> state -> res arr) : Prop := forall x y, x < nb -> y < nk -> exists e e' a, nth f e 0 = x /\ nth f e' 0 = y /\ g (bra, e) (ket, e') = Ok a.
  Lemma try_get_ok (m : lst -> lst -> option arr) i j : (forall x y, x < nl lroots f i -> y < nl lroots f j -> m (uroot f i, x) (uroot f j, y) <> None) ->
    exists t, try_get lroots uroot m f i j = Ok t /\ forall x y r, x < nl lroots f i -> y < nl lroots f j -> exists a, m (uroot f i, x) (uroot f j, y) = Some a /\ t (x :: y :: r) = a r.
  Proof.
    intros H. unfold try_get.
    replace (forallb _ _) with true.
    - eexists. split; [reflexivity|]. intros x y r Hx Hy. cbn beta iota. destruct (m (uroot f i, x) (uroot f j, y)) as [a|] eqn:E; [exists a; split; reflexivity|]. exfalso. now apply (H x y Hx Hy).
    - symmetry. apply forallb_forall. intros x Ix. apply in_seq in Ix. apply forallb_forall. intros y Iy. apply in_seq in Iy. destruct (m (uroot f i, x) (uroot f j, y)) eqn:E; [reflexivity|]. exfalso. apply (H x y); auto; lia.
  Qed.
  Ltac fin r := repeat (destruct r as [|? r]; try discriminate).
  Lemma h_table s : defined (fun b k => get_1_h ints uroot f b k s) -> exists t, get_h lroots ints uroot f bra ket s = Ok t /\ is_table 1 t (fun b k => get_1_h ints uroot f b k s).
  Proof.
    intros D. unfold get_h. destruct (try_get_ok (m_h (ints f) s) bra ket) as (t & Et & Vt).
    { intros x y Hx Hy. destruct (D x y Hx Hy) as (e & e' & a & <- & <- & E). unfold get_1_h, loc in E. cbn [fst snd] in E. intros N. rewrite N in E. discriminate. }
    exists t. split; [exact Et|]. intros e e' r He He' _. destruct (Vt _ _ r He He') as (a & Ea & ->). unfold get_1_h, loc. cbn [fst snd]. rewrite Ea. reflexivity.
  Qed.
  Lemma hh_table s : defined (fun b k => get_1_hh ints uroot f b k s) -> exists t, get_hh lroots ints uroot f bra ket s = Ok t /\ is_table 2 t (fun b k => get_1_hh ints uroot f b k s).
  Proof.
    intros D. unfold get_hh. destruct (try_get_ok (m_hh (ints f) s) bra ket) as (t & Et & Vt).
    { intros x y Hx Hy. destruct (D x y Hx Hy) as (e & e' & a & <- & <- & E). unfold get_1_hh, loc in E. cbn [fst snd] in E. intros N. rewrite N in E. discriminate. }
    exists t. split; [exact Et|]. intros e e' r He He' _. destruct (Vt _ _ r He He') as (a & Ea & ->). unfold get_1_hh, loc. cbn [fst snd]. rewrite Ea. reflexivity.
  Qed.
  Lemma sm_table : defined (get_1_sm ints uroot f) -> exists t, get_sm lroots ints uroot f bra ket = Ok t /\ is_table 2 t (get_1_sm ints uroot f).
  Proof.
    intros D. unfold get_sm. destruct (try_get_ok (m_sm (ints f)) bra ket) as (t & Et & Vt).
    { intros x y Hx Hy. destruct (D x y Hx Hy) as (e & e' & a & <- & <- & E). unfold get_1_sm, loc in E. cbn [fst snd] in E. intros N. rewrite N in E. discriminate. }
    exists t. split; [exact Et|]. intros e e' r He He' _. destruct (Vt _ _ r He He') as (a & Ea & ->). unfold get_1_sm, loc. cbn [fst snd]. rewrite Ea. reflexivity.
  Qed.
  Lemma p_table s : defined (fun b k => get_1_p ints uroot f b k s) -> exists t, get_p lroots ints uroot f bra ket s = Ok t /\ is_table 1 t (fun b k => get_1_p ints uroot f b k s).
  Proof.
    intros D. unfold get_p. destruct (try_get_ok (m_h (ints f) s) ket bra) as (t & Et & Vt).
    { intros y x Hy Hx. destruct (D x y Hx Hy) as (e & e' & a & <- & <- & E). unfold get_1_p, loc in E. cbn [fst snd] in E. intros N. rewrite N in E. discriminate. }
    rewrite Et. eexists. split; [reflexivity|]. intros e e' r He He' L. fin r. destruct (Vt _ _ [n] He' He) as (a & Ea & Va). unfold get_1_p, loc. cbn [fst snd]. rewrite Ea. cbn [got bind val]. unfold aconj. rewrite <- Va. reflexivity.
  Qed.
  Lemma pp_table s : defined (fun b k => get_1_pp ints uroot f b k s) -> exists t, get_pp lroots ints uroot f bra ket s = Ok t /\ is_table 2 t (fun b k => get_1_pp ints uroot f b k s).
  Proof.
    intros D. unfold get_pp. destruct (try_get_ok (m_hh (ints f) s) ket bra) as (t & Et & Vt).
    { intros y x Hy Hx. destruct (D x y Hx Hy) as (e & e' & a & <- & <- & E). unfold get_1_pp, loc in E. cbn [fst snd] in E. intros N. rewrite N in E. discriminate. }
    rewrite Et. eexists. split; [reflexivity|]. intros e e' r He He' L. fin r. destruct (Vt _ _ [n0; n] He' He) as (a & Ea & Va). unfold get_1_pp, loc. cbn [fst snd]. rewrite Ea. cbn [got bind val]. transitivity (sconj (a [n0; n])); [rewrite <- Va; reflexivity|reflexivity].
  Qed.
  Lemma sp_table : defined (get_1_sp ints uroot f) -> exists t, get_sp lroots ints uroot f bra ket = Ok t /\ is_table 2 t (get_1_sp ints uroot f).
  Proof.
    intros D. unfold get_sp. destruct (try_get_ok (m_sm (ints f)) ket bra) as (t & Et & Vt).
    { intros y x Hy Hx. destruct (D x y Hx Hy) as (e & e' & a & <- & <- & E). unfold get_1_sp, loc in E. cbn [fst snd] in E. intros N. rewrite N in E. discriminate. }
    rewrite Et. eexists. split; [reflexivity|]. intros e e' r He He' L. fin r. destruct (Vt _ _ [n0; n] He' He) as (a & Ea & Va). unfold get_1_sp, loc. cbn [fst snd]. rewrite Ea. cbn [got bind val]. transitivity (sconj (a [n0; n])); [rewrite <- Va; reflexivity|reflexivity].
  Qed.
  Lemma phh_table s : defined (fun b k => get_1_phh ints uroot f b k s) -> exists t, get_phh lroots ints uroot f bra ket s = Ok t /\ is_table 4 t (fun b k => get_1_phh ints uroot f b k s).
  Proof.
    intros D. unfold get_phh. destruct (try_get_ok (m_phh (ints f) s) bra ket) as (t & Et & Vt).
    { intros x y Hx Hy. destruct (D x y Hx Hy) as (e & e' & a & <- & <- & E). unfold get_1_phh, loc in E. cbn [fst snd] in E. intros N. rewrite N in E. discriminate. }
    rewrite Et. eexists. split; [reflexivity|]. intros e e' r He He' L. fin r. destruct (Vt _ _ [n; n2; n0; n1] He He') as (a & Ea & Va). unfold get_1_phh, loc. cbn [fst snd]. rewrite Ea. cbn [got bind val]. transitivity (a [n; n2; n0; n1]); [rewrite <- Va; reflexivity|reflexivity].
  Qed.
  Lemma pph_table s : defined (fun b k => get_1_pph ints uroot f b k s) -> exists t, get_pph lroots ints uroot f bra ket s = Ok t /\ is_table 4 t (fun b k => get_1_pph ints uroot f b k s).
  Proof.
    intros D. unfold get_pph. destruct (try_get_ok (m_phh (ints f) s) ket bra) as (t & Et & Vt).
    { intros y x Hy Hx. destruct (D x y Hx Hy) as (e & e' & a & <- & <- & E). unfold get_1_pph, loc in E. cbn [fst snd] in E. intros N. rewrite N in E. discriminate. }
    rewrite Et. eexists. split; [reflexivity|]. intros e e' r He He' L. fin r. destruct (Vt _ _ [n; n0; n2; n1] He' He) as (a & Ea & Va). unfold get_1_pph, loc. cbn [fst snd]. rewrite Ea. cbn [got bind val]. transitivity (sconj (a [n; n0; n2; n1])); [rewrite <- Va; reflexivity|reflexivity].
  Qed.
  Lemma dm1_table : defined (get_1_dm1 ints uroot f) -> exists t, get_dm1 lroots ints uroot f bra ket = Ok t /\ is_table 3 t (get_1_dm1 ints uroot f).
  Proof.
    intros D. unfold get_dm1, is_table, get_1_dm1 in *. cbn [fst] in *. destruct (uroot f bra <? uroot f ket) eqn:C.
    - destruct (try_get_ok (m_dm1 (ints f)) ket bra) as (t & Et & Vt).
      { intros y x Hy Hx. destruct (D x y Hx Hy) as (e & e' & a & <- & <- & E). cbn [fst snd] in E. rewrite C in E. unfold loc in E. cbn [fst snd] in E. intros N. rewrite N in E. discriminate. }
      rewrite Et. eexists. split; [reflexivity|]. intros e e' r He He' L. fin r. destruct (Vt _ _ [n; n1; n0] He' He) as (a & Ea & Va). unfold loc. cbn [fst snd]. rewrite Ea. cbn [got bind val]. transitivity (sconj (a [n; n1; n0])); [rewrite <- Va; reflexivity|reflexivity].
    - destruct (try_get_ok (m_dm1 (ints f)) bra ket) as (t & Et & Vt).
      { intros x y Hx Hy. destruct (D x y Hx Hy) as (e & e' & a & <- & <- & E). cbn [fst snd] in E. rewrite C in E. unfold loc in E. cbn [fst snd] in E. intros N. rewrite N in E. discriminate. }
      exists t. split; [exact Et|]. intros e e' r He He' _. destruct (Vt _ _ r He He') as (a & Ea & ->). unfold loc. cbn [fst snd]. rewrite Ea. reflexivity.
  Qed.
  Lemma dm2_table : defined (get_1_dm2 ints uroot f) -> exists t, get_dm2 lroots ints uroot f bra ket = Ok t /\ is_table 5 t (get_1_dm2 ints uroot f).
  Proof.
    intros D. unfold get_dm2, is_table, get_1_dm2 in *. cbn [fst] in *. destruct (uroot f bra <? uroot f ket) eqn:C.
    - destruct (try_get_ok (m_dm2 (ints f)) ket bra) as (t & Et & Vt).
      { intros y x Hy Hx. destruct (D x y Hx Hy) as (e & e' & a & <- & <- & E). cbn [fst snd] in E. rewrite C in E. unfold loc in E. cbn [fst snd] in E. intros N. rewrite N in E. discriminate. }
      rewrite Et. eexists. split; [reflexivity|]. intros e e' r He He' L. fin r. destruct (Vt _ _ [n; n1; n0; n3; n2] He' He) as (a & Ea & Va). unfold loc. cbn [fst snd]. rewrite Ea. cbn [got bind val]. transitivity (sconj (a [n; n1; n0; n3; n2])); [rewrite <- Va; reflexivity|reflexivity].
    - destruct (try_get_ok (m_dm2 (ints f)) bra ket) as (t & Et & Vt).
      { intros x y Hx Hy. destruct (D x y Hx Hy) as (e & e' & a & <- & <- & E). cbn [fst snd] in E. rewrite C in E. unfold loc in E. cbn [fst snd] in E. intros N. rewrite N in E. discriminate. }
      exists t. split; [exact Et|]. intros e e' r He He' _. destruct (Vt _ _ r He He') as (a & Ea & ->). unfold loc. cbn [fst snd]. rewrite Ea. reflexivity.
  Qed.
End Tables.

Section Sums.
  Context {K : star_ring}.
  Add Ring Kring2 : (sring K).
  Notation arr := (@arr K).
  Variables (cb ck : list nat) (n : nat) (fd : arr).
  Notation B f := (seq 0 (nth f cb 0)).
  Notation C f := (seq 0 (nth f ck 0)).
  Notation ssum l := (ssum cb ck n l fd).
  Ltac dist := repeat constructor; cbn [In]; intuition congruence.
  Ltac bounds := intros f If; cbn [In] in If; intuition (subst; auto).
  Lemma sum1 i (P : nat -> nat -> K) : i < n -> bsum (B i) (fun x => bsum (C i) (fun y => smul (fd [x; y]) (P x y))) = ssum [i] (fun e e' => P (nth i e 0) (nth i e' 0)).
  Proof.
    intros Hi. etransitivity; [exact (nested1 cb ck n i (fun x y => smul (fd [x; y]) (P x y)) Hi)|]. apply tsum_ssum; [bounds|dist|]. reflexivity.
  Qed.
  Lemma sum2 j i (P H : nat -> nat -> K) : i < n -> j < n -> i <> j ->
    bsum (B j) (fun x1 => bsum (C j) (fun y1 => smul (bsum (B i) (fun x => bsum (C i) (fun y => smul (fd [x1; y1; x; y]) (P x y)))) (H x1 y1))) =
    ssum [j; i] (fun e e' => smul (P (nth i e 0) (nth i e' 0)) (H (nth j e 0) (nth j e' 0))).
  Proof.
    intros Hi Hj N. etransitivity; [|etransitivity; [exact (nested2 cb ck n j i (fun x1 y1 x y => smul (smul (fd [x1; y1; x; y]) (P x y)) (H x1 y1)) Hi Hj N)|]].
    - do 2 (apply bsum_ext; intros ? _). do 2 (rewrite bsum_mul_r; apply bsum_ext; intros ? _). reflexivity.
    - apply tsum_ssum; [bounds|dist|]. intros e e' _ _ _. unfold inter. cbn [flat_map app]. ring.
  Qed.
  Lemma sum3 k j i (P H D : nat -> nat -> K) : i < n -> j < n -> k < n -> i <> j -> i <> k -> j <> k ->
    bsum (B k) (fun x2 => bsum (C k) (fun y2 => smul (bsum (B j) (fun x1 => bsum (C j) (fun y1 => smul (bsum (B i) (fun x => bsum (C i) (fun y =>
      smul (fd [x2; y2; x1; y1; x; y]) (P x y)))) (H x1 y1)))) (D x2 y2))) =
    ssum [k; j; i] (fun e e' => smul (smul (P (nth i e 0) (nth i e' 0)) (H (nth j e 0) (nth j e' 0))) (D (nth k e 0) (nth k e' 0))).
  Proof.
    intros Hi Hj Hk N1 N2 N3. etransitivity; [|etransitivity; [exact (nested3 cb ck n k j i (fun x2 y2 x1 y1 x y => smul (smul (smul (fd [x2; y2; x1; y1; x; y]) (P x y)) (H x1 y1)) (D x2 y2)) Hi Hj Hk N1 N2 N3)|]].
    - do 2 (apply bsum_ext; intros ? _). do 2 (rewrite bsum_mul_r; apply bsum_ext; intros ? _). rewrite bsum_mul_r, bsum_mul_r. apply bsum_ext; intros ? _. do 2 rewrite bsum_mul_r. apply bsum_ext; intros ? _. reflexivity.
    - apply tsum_ssum; [bounds|dist|]. intros e e' _ _ _. unfold inter. cbn [flat_map app]. ring.
  Qed.
  Lemma sum4 l k j i (P H D E : nat -> nat -> K) : i < n -> j < n -> k < n -> l < n -> i <> j -> i <> k -> i <> l -> j <> k -> j <> l -> k <> l ->
    bsum (B l) (fun x3 => bsum (C l) (fun y3 => smul (bsum (B k) (fun x2 => bsum (C k) (fun y2 => smul (bsum (B j) (fun x1 => bsum (C j) (fun y1 => smul (bsum (B i) (fun x => bsum (C i) (fun y =>
      smul (fd [x3; y3; x2; y2; x1; y1; x; y]) (P x y)))) (H x1 y1)))) (D x2 y2)))) (E x3 y3))) =
    ssum [l; k; j; i] (fun e e' => smul (smul (smul (P (nth i e 0) (nth i e' 0)) (H (nth j e 0) (nth j e' 0))) (D (nth k e 0) (nth k e' 0))) (E (nth l e 0) (nth l e' 0))).
  Proof.
    intros Hi Hj Hk Hl N1 N2 N3 N4 N5 N6. etransitivity; [|etransitivity; [exact (nested4 cb ck n l k j i (fun x3 y3 x2 y2 x1 y1 x y => smul (smul (smul (smul (fd [x3; y3; x2; y2; x1; y1; x; y]) (P x y)) (H x1 y1)) (D x2 y2)) (E x3 y3)) Hi Hj Hk Hl N1 N2 N3 N4 N5 N6)|]].
    - do 2 (apply bsum_ext; intros ? _). do 2 (rewrite bsum_mul_r; apply bsum_ext; intros ? _). do 2 (rewrite bsum_mul_r, bsum_mul_r; apply bsum_ext; intros ? _). do 2 (rewrite bsum_mul_r, bsum_mul_r, bsum_mul_r; apply bsum_ext; intros ? _). reflexivity.
    - apply tsum_ssum; [bounds|dist|]. intros e e' _ _ _. unfold inter. cbn [flat_map app]. ring.
  Qed.
End Sums.

Section CrunchSum.
  Context {K : star_ring}.
  Add Ring Kring3 : (sring K).
  Notation arr := (@arr K).
  Variables (lroots : list (list nat)) (norb : nat -> nat) (ints : nat -> @fmats K) (uroot : nat -> nat -> nat) (nelec_rf : nat -> list nat) (nz : K -> bool).
  Variables bra ket : nat.
  Let n := length lroots.
  Let cb := column lroots bra.
  Let ck := column lroots ket.
  Hypothesis Hb : forall f, f < n -> 0 < nth f cb 0.
  Hypothesis Hk : forall f, f < n -> 0 < nth f ck 0.
  Variable fdm : list nat -> list nat -> res arr.
  Variable fd : arr.
  Notation crunch := (crunch norb ints uroot nelec_rf nz).
  Notation ssum l := (ssum cb ck n l fd).
  Definition all_ok (l : list nat) (T : Type) (g : state -> state -> res T) : Prop := forall e e', length e = n -> length e' = n -> inr cb ck l e e' -> exists a, g (bra, e) (ket, e') = Ok a.
  Lemma zero_in l : (forall f, In f l -> f < n) -> inr cb ck l (repeat 0 n) (repeat 0 n).
  Proof. intros H f If. rewrite !nth_repeat. split; auto. Qed.
  Lemma ok_defined l f (g : state -> state -> res arr) : (forall f, In f l -> f < n) -> In f l -> all_ok l arr g -> defined lroots bra ket f g.
  Proof.
    intros Hl If H x y Hx Hy. assert (Hf := Hl _ If). destruct (H (put f x (repeat 0 n)) (put f y (repeat 0 n))) as (a & E); rewrite ?put_len, ?repeat_length; auto.
    - intros h Ih. destruct (Nat.eq_dec h f) as [->|N]; [rewrite !put_at by (rewrite repeat_length; exact Hf); split; [exact Hx|exact Hy]|rewrite !put_other, !nth_repeat by auto; split; [apply Hb|apply Hk]; now apply Hl].
    - exists (put f x (repeat 0 n)), (put f y (repeat 0 n)), a. rewrite !put_at by (rewrite repeat_length; exact Hf). auto.
  Qed.
  Lemma all_ok_bind l T U (g : state -> state -> res T) (h : T -> state -> state -> res U) : all_ok l U (fun b k => do a <- g b k ;; h a b k) -> all_ok l T g.
  Proof. intros H e e' Le Le' R. destruct (H e e' Le Le' R) as (a & E). destruct (g (bra, e) (ket, e')) as [t|]; [now exists t|discriminate]. Qed.
  Lemma all_ok_next l T U (g : state -> state -> res T) (h : T -> state -> state -> res U) : all_ok l U (fun b k => do a <- g b k ;; h a b k) -> all_ok l U (fun b k => match g b k with Ok a => h a b k | Raise e => Raise e end).
  Proof. intros H e e' Le Le' R. exact (H e e' Le Le' R). Qed.
  Ltac dist := repeat constructor; cbn [In]; intuition congruence.
  Ltac bounds := intros ? If; cbn [In] in If; intuition (subst; auto).
  Ltac split_ok E := repeat match type of E with bind ?r _ = Ok _ => let a := fresh "a" in let X := fresh "X" in destruct r as [a|] eqn:X; cbn [bind] in E; [|discriminate E] end.
  Ltac isok Hok := let e := fresh in let e' := fresh in let Le := fresh in let Le' := fresh in let R := fresh in let d := fresh in let E := fresh in
    intros e e' Le Le' R; destruct (Hok e e' Le Le' R) as (d & E); cbv beta zeta in E; split_ok E; cbv beta; eexists; first [reflexivity|eassumption].

  Lemma sum_1d i : i < n -> fdm [i] [i] = Ok fd -> all_ok [i] _ (crunch 0 [i] None) ->
    exists d, rdm_1d lroots norb ints uroot fdm bra ket i = Ok d /\ forall x, d x = ssum [i] (fun e e' => crunch_D norb ints uroot nelec_rf nz 0 [i] None (bra, e) (ket, e') x).
  Proof.
    intros Hi Hf Hok. assert (Bd : forall f, In f [i] -> f < n) by bounds. assert (Nd : NoDup [i]) by dist.
    change (all_ok [i] _ (fun b k => crunch_1d norb ints uroot b k i)) in Hok. unfold crunch_1d in Hok.
    destruct (dm1_table lroots ints uroot bra ket i) as (t1 & E1 & V1); [apply (ok_defined [i]); [exact Bd|now left|isok Hok]|].
    destruct (dm2_table lroots ints uroot bra ket i) as (t2 & E2 & V2); [apply (ok_defined [i]); [exact Bd|now left|isok Hok]|].
    unfold rdm_1d. rewrite Hf, E1, E2. cbn [bind]. eexists. split; [reflexivity|]. intros x.
    etransitivity.
    { apply (lin_dens cb ck n [i] fd).
      - apply lin_set1 with (A := fun e e' => val (get_1_dm1 ints uroot i (bra, e) (ket, e'))); [|apply lin1_z; auto].
        intros ix L. do 4 (destruct ix as [|? ix]; try discriminate). etransitivity; [exact (sum1 cb ck n fd i (fun x y => t1 [x; y; n0; n1; n2]) Hi)|].
        apply ssum_ext; auto. intros e e' _ _ R. destruct (R i (or_introl eq_refl)). now apply V1.
      - apply lin_set2 with (A := fun e e' => val (get_1_dm2 ints uroot i (bra, e) (ket, e'))); [|apply lin2_z; auto].
        intros ix L. do 6 (destruct ix as [|? ix]; try discriminate). etransitivity; [exact (sum1 cb ck n fd i (fun x y => t2 [x; y; n0; n1; n2; n3; n4]) Hi)|].
        apply ssum_ext; auto. intros e e' _ _ R. destruct (R i (or_introl eq_refl)). now apply V2. }
    apply ssum_ext; auto. intros e e' Le Le' R. destruct (Hok e e' Le Le' R) as (d & E). unfold crunch_D. cbn [CrunchModel.crunch]. unfold crunch_1d. split_ok E. reflexivity.
  Qed.

  Ltac tab L t E V l Hok Bd := destruct L as (t & E & V); [apply (ok_defined l); [exact Bd|cbn [In]; tauto|isok Hok]|].
  Ltac leaf2 R i j V1 V2 := apply ssum_ext; auto; intros e e' _ _ R; destruct (R i) as [? ?]; [cbn [In]; tauto|]; destruct (R j) as [? ?]; [cbn [In]; tauto|]; rewrite V1, V2 by (auto; reflexivity).
  Lemma sum_2d i j : i < n -> j < n -> i <> j -> fdm [i; j] [i; j] = Ok fd -> all_ok [j; i] _ (crunch 1 [i; j] None) ->
    exists d, rdm_2d lroots norb ints uroot fdm bra ket i j = Ok d /\ forall x, d x = ssum [j; i] (fun e e' => crunch_D norb ints uroot nelec_rf nz 1 [i; j] None (bra, e) (ket, e') x).
  Proof.
    intros Hi Hj N Hf Hok. assert (Bd : forall f, In f [j; i] -> f < n) by bounds. assert (Nd : NoDup [j; i]) by dist.
    change (all_ok [j; i] _ (fun b k => crunch_2d norb ints uroot b k i j)) in Hok. unfold crunch_2d in Hok.
    tab (dm1_table lroots ints uroot bra ket i) t1 E1 V1 [j; i] Hok Bd. tab (dm1_table lroots ints uroot bra ket j) t2 E2 V2 [j; i] Hok Bd.
    unfold rdm_2d. rewrite Hf, E1, E2. cbn [bind]. eexists. split; [reflexivity|]. intros x.
    assert (L : lin cb ck n [j; i] fd 6 (tdot 5 0 (nl lroots j bra) (nl lroots j ket) (tdot 4 2 (nl lroots i bra) (nl lroots i ket) fd t1) t2) (fun e e' => outer 3 (val (get_1_dm1 ints uroot i (bra, e) (ket, e'))) (val (get_1_dm1 ints uroot j (bra, e) (ket, e'))))).
    { intros ix L. do 7 (destruct ix as [|? ix]; try discriminate). etransitivity; [exact (sum2 cb ck n fd j i (fun x y => t1 [x; y; n0; n1; n2]) (fun x y => t2 [x; y; n3; n4; n5]) Hi Hj N)|].
      leaf2 R i j V1 V2. reflexivity. }
    etransitivity.
    { apply (lin_dens cb ck n [j; i] fd); [apply lin1_z; auto|]. 
      assert (L' := lin_join2 cb ck n [j; i] fd _ _ _ (lin_tpose cb ck n [j; i] fd 6 [0; 3; 1; 2; 4; 5] _ _ eq_refl L)).
      repeat (apply lin_set2; [first [exact L'|apply lin_tpose; [reflexivity|]; apply lin_pick; exact L'|apply lin_fmul; auto; apply lin_tpose; [reflexivity|]; apply lin_pick; exact L']|]). apply lin2_z; auto. }
    apply ssum_ext; auto. intros e e' Le Le' R. destruct (Hok e e' Le Le' R) as (d & E). unfold crunch_D. cbn [CrunchModel.crunch]. unfold crunch_2d. split_ok E. reflexivity.
  Qed.
  Lemma sum_1s i j : i < n -> j < n -> i <> j -> fdm [i; j] [i; j] = Ok fd -> all_ok [j; i] _ (crunch 4 [i; j] None) ->
    exists d, rdm_1s lroots norb ints uroot fdm bra ket i j = Ok d /\ forall x, d x = ssum [j; i] (fun e e' => crunch_D norb ints uroot nelec_rf nz 4 [i; j] None (bra, e) (ket, e') x).
  Proof.
    intros Hi Hj N Hf Hok. assert (Bd : forall f, In f [j; i] -> f < n) by bounds. assert (Nd : NoDup [j; i]) by dist.
    change (all_ok [j; i] _ (fun b k => crunch_1s norb ints uroot b k i j)) in Hok. unfold crunch_1s in Hok.
    tab (sp_table lroots ints uroot bra ket i) t1 E1 V1 [j; i] Hok Bd. tab (sm_table lroots ints uroot bra ket j) t2 E2 V2 [j; i] Hok Bd.
    unfold rdm_1s. rewrite Hf, E1, E2. cbn [bind]. eexists. split; [reflexivity|]. intros x.
    assert (L : lin cb ck n [j; i] fd 4 (tdot 4 2 (nl lroots j bra) (nl lroots j ket) (tpose [2; 3; 0; 1] (tdot 4 2 (nl lroots i bra) (nl lroots i ket) fd t1)) t2) (fun e e' => outer 2 (val (get_1_sp ints uroot i (bra, e) (ket, e'))) (val (get_1_sm ints uroot j (bra, e) (ket, e'))))).
    { intros ix L. do 5 (destruct ix as [|? ix]; try discriminate). etransitivity; [exact (sum2 cb ck n fd j i (fun x y => t1 [x; y; n0; n1]) (fun x y => t2 [x; y; n2; n3]) Hi Hj N)|].
      leaf2 R i j V1 V2. reflexivity. }
    etransitivity.
    { apply (lin_dens cb ck n [j; i] fd); [apply lin1_z; auto|].
      repeat (apply lin_set2b; [apply lin_tpose; [reflexivity|]; apply lin_fmul; [auto|auto|exact L]|]). apply lin2_z; auto. }
    apply ssum_ext; auto. intros e e' Le Le' R. destruct (Hok e e' Le Le' R) as (d & E). unfold crunch_D. cbn [CrunchModel.crunch]. unfold crunch_1s. split_ok E. reflexivity.
  Qed.
  Ltac atzero Hok Bd f1 f2 F1 F2 z d E := destruct (Hok _ _ (repeat_length 0 n) (repeat_length 0 n) (zero_in _ Bd)) as (d & E); cbv beta zeta in E;
    match type of E with bind ?r _ = _ => destruct r as [f1|] eqn:F1; cbn [bind] in E; [|discriminate E] end;
    match type of E with bind ?r _ = _ => destruct r as [f2|] eqn:F2; cbn [bind] in E; [|discriminate E] end.
  Lemma sum_1c i j s1 : i < n -> j < n -> i <> j -> fdm [i; j] [i; j] = Ok fd -> all_ok [j; i] _ (crunch 2 [i; j] (Some s1)) ->
    exists d, rdm_1c lroots norb ints uroot nelec_rf fdm bra ket i j s1 = Ok d /\ forall x, d x = ssum [j; i] (fun e e' => crunch_D norb ints uroot nelec_rf nz 2 [i; j] (Some s1) (bra, e) (ket, e') x).
  Proof.
    intros Hi Hj N Hf Hok. assert (Bd : forall f, In f [j; i] -> f < n) by bounds. assert (Nd : NoDup [j; i]) by dist.
    change (all_ok [j; i] _ (fun b k => crunch_1c norb ints uroot nelec_rf b k i j s1)) in Hok. unfold crunch_1c in Hok.
    tab (p_table lroots ints uroot bra ket i s1) t1 E1 V1 [j; i] Hok Bd. tab (h_table lroots ints uroot bra ket j s1) t2 E2 V2 [j; i] Hok Bd.
    tab (phh_table lroots ints uroot bra ket j s1) t3 E3 V3 [j; i] Hok Bd. tab (pph_table lroots ints uroot bra ket i s1) t4 E4 V4 [j; i] Hok Bd.
    atzero Hok Bd f1 f2 F1 F2 z d0 E0. clear d0 E0. unfold des in F1, F2. cbn [fst] in F1, F2.
    unfold rdm_1c. rewrite Hf, E1, E2, E3, E4, F1, F2. cbn [bind]. eexists. split; [reflexivity|]. intros x.
    assert (L1 : lin cb ck n [j; i] fd 2 (tdot 3 1 (nl lroots j bra) (nl lroots j ket) (tpose [2; 0; 1] (tdot 4 2 (nl lroots i bra) (nl lroots i ket) fd t1)) t2) (fun e e' => outer 1 (val (get_1_p ints uroot i (bra, e) (ket, e') s1)) (val (get_1_h ints uroot j (bra, e) (ket, e') s1)))).
    { intros ix L. do 3 (destruct ix as [|? ix]; try discriminate). etransitivity; [exact (sum2 cb ck n fd j i (fun x y => t1 [x; y; n0]) (fun x y => t2 [x; y; n1]) Hi Hj N)|]. leaf2 R i j V1 V2. reflexivity. }
    assert (L2 : lin cb ck n [j; i] fd 5 (tdot 3 1 (nl lroots j bra) (nl lroots j ket) (tpose [2; 0; 1] (tdot 4 2 (nl lroots i bra) (nl lroots i ket) fd t1)) t3) (fun e e' => outer 1 (val (get_1_p ints uroot i (bra, e) (ket, e') s1)) (val (get_1_phh ints uroot j (bra, e) (ket, e') s1)))).
    { intros ix L. do 6 (destruct ix as [|? ix]; try discriminate). etransitivity; [exact (sum2 cb ck n fd j i (fun x y => t1 [x; y; n0]) (fun x y => t3 [x; y; n1; n2; n3; n4]) Hi Hj N)|]. leaf2 R i j V1 V3. reflexivity. }
    assert (L3 : lin cb ck n [j; i] fd 5 (tdot 6 4 (nl lroots j bra) (nl lroots j ket) (tpose [2; 3; 4; 5; 0; 1] (tdot 4 2 (nl lroots i bra) (nl lroots i ket) fd t4)) t2) (fun e e' => outer 4 (val (get_1_pph ints uroot i (bra, e) (ket, e') s1)) (val (get_1_h ints uroot j (bra, e) (ket, e') s1)))).
    { intros ix L. do 6 (destruct ix as [|? ix]; try discriminate). etransitivity; [exact (sum2 cb ck n fd j i (fun x y => t4 [x; y; n0; n1; n2; n3]) (fun x y => t2 [x; y; n4]) Hi Hj N)|]. leaf2 R i j V4 V2. reflexivity. }
    etransitivity.
    { apply (lin_dens cb ck n [j; i] fd).
      - apply lin_set1b; [apply lin_fmul; [exact Bd|exact Nd|exact L1]|apply lin1_z; auto].
      - apply lin_tdm2; [exact Bd|exact Nd|apply lin_fmul; [exact Bd|exact Nd|]; apply lin_tpose; [reflexivity|exact L3]|].
        apply lin_tdm2; [exact Bd|exact Nd|apply lin_fmul; [exact Bd|exact Nd|]; apply lin_tpose; [reflexivity|exact L2]|]. apply lin2_z; auto. }
    apply ssum_ext; auto. intros e e' Le Le' R. destruct (Hok e e' Le Le' R) as (d & E). unfold crunch_D. cbn [CrunchModel.crunch]. unfold crunch_1c.
    change (des nelec_rf (bra, e) [i; j] i) with (fermion_des_shuffle (nelec_rf bra) [i; j] i). change (des nelec_rf (ket, e') [i; j] j) with (fermion_des_shuffle (nelec_rf ket) [i; j] j).
    rewrite F1, F2. cbn [bind]. change (des nelec_rf (bra, e) [i; j] i) with (fermion_des_shuffle (nelec_rf bra) [i; j] i) in E. change (des nelec_rf (ket, e') [i; j] j) with (fermion_des_shuffle (nelec_rf ket) [i; j] j) in E. rewrite F1, F2 in E. cbn [bind] in E.
    split_ok E. cbn [bind val]. destruct x as [s p q|b p q r u]; cbn [dens]; [reflexivity|]. now apply tdm2_comm.
  Qed.
  Lemma sum_1c1d i j k s1 : i < n -> j < n -> k < n -> i <> j -> i <> k -> j <> k -> fdm [i; j; k] [i; j; k] = Ok fd -> all_ok [k; j; i] _ (crunch 3 [i; j; k] (Some s1)) ->
    exists d, rdm_1c1d lroots norb ints uroot nelec_rf fdm bra ket i j k s1 = Ok d /\ forall x, d x = ssum [k; j; i] (fun e e' => crunch_D norb ints uroot nelec_rf nz 3 [i; j; k] (Some s1) (bra, e) (ket, e') x).
  Proof.
    intros Hi Hj Hkk N1 N2 N3 Hf Hok. assert (Bd : forall f, In f [k; j; i] -> f < n) by bounds. assert (Nd : NoDup [k; j; i]) by dist.
    change (all_ok [k; j; i] _ (fun b c => crunch_1c1d norb ints uroot nelec_rf b c i j k s1)) in Hok. unfold crunch_1c1d in Hok.
    tab (p_table lroots ints uroot bra ket i s1) t1 E1 V1 [k; j; i] Hok Bd. tab (h_table lroots ints uroot bra ket j s1) t2 E2 V2 [k; j; i] Hok Bd. tab (dm1_table lroots ints uroot bra ket k) t3 E3 V3 [k; j; i] Hok Bd.
    atzero Hok Bd f1 f2 F1 F2 z d0 E0. clear d0 E0. unfold des in F1, F2. cbn [fst] in F1, F2.
    unfold rdm_1c1d. rewrite Hf, E1, E2, E3, F1, F2. cbn [bind]. eexists. split; [reflexivity|]. intros x.
    assert (L1 : lin cb ck n [k; j; i] fd 5 (tdot 4 0 (nl lroots k bra) (nl lroots k ket) (tdot 5 2 (nl lroots j bra) (nl lroots j ket) (tdot 6 4 (nl lroots i bra) (nl lroots i ket) fd t1) t2) t3)
      (fun e e' => outer 2 (outer 1 (val (get_1_p ints uroot i (bra, e) (ket, e') s1)) (val (get_1_h ints uroot j (bra, e) (ket, e') s1))) (val (get_1_dm1 ints uroot k (bra, e) (ket, e'))))).
    { intros ix L. do 6 (destruct ix as [|? ix]; try discriminate). etransitivity; [exact (sum3 cb ck n fd k j i (fun x y => t1 [x; y; n0]) (fun x y => t2 [x; y; n1]) (fun x y => t3 [x; y; n2; n3; n4]) Hi Hj Hkk N1 N2 N3)|].
      apply ssum_ext; auto; intros e e' _ _ R. destruct (R i) as [? ?]; [cbn [In]; tauto|]; destruct (R j) as [? ?]; [cbn [In]; tauto|]; destruct (R k) as [? ?]; [cbn [In]; tauto|]. rewrite V1, V2, V3 by (auto; reflexivity). reflexivity. }
    etransitivity.
    { apply (lin_dens cb ck n [k; j; i] fd); [apply lin1_z; auto|].
      apply lin_tdm2; [exact Bd|exact Nd|apply lin_fmul; [exact Bd|exact Nd|]; apply lin_tpose; [reflexivity|exact L1]|]. apply lin2_z; auto. }
    apply ssum_ext; auto. intros e e' Le Le' R. destruct (Hok e e' Le Le' R) as (d & E). unfold crunch_D. cbn [CrunchModel.crunch]. unfold crunch_1c1d.
    change (des nelec_rf (bra, e)) with (fermion_des_shuffle (nelec_rf bra)) in E |- *. change (des nelec_rf (ket, e')) with (fermion_des_shuffle (nelec_rf ket)) in E |- *.
    rewrite F1, F2 in E |- *. cbn [bind] in E |- *. split_ok E. reflexivity.
  Qed.
  Lemma sum_1s1c i j k s1 : i < n -> j < n -> k < n -> i <> j -> i <> k -> j <> k -> fdm [i; j; k] [i; j; k] = Ok fd -> all_ok [k; j; i] _ (crunch 5 [i; j; k] (Some s1)) ->
    exists d, rdm_1s1c lroots norb ints uroot nelec_rf fdm bra ket i j k s1 = Ok d /\ forall x, d x = ssum [k; j; i] (fun e e' => crunch_D norb ints uroot nelec_rf nz 5 [i; j; k] (Some s1) (bra, e) (ket, e') x).
  Proof.
    intros Hi Hj Hkk N1 N2 N3 Hf Hok. assert (Bd : forall f, In f [k; j; i] -> f < n) by bounds. assert (Nd : NoDup [k; j; i]) by dist.
    change (all_ok [k; j; i] _ (fun b c => crunch_1s1c norb ints uroot nelec_rf b c i j k s1)) in Hok. unfold crunch_1s1c in Hok.
    tab (p_table lroots ints uroot bra ket i s1) t1 E1 V1 [k; j; i] Hok Bd. tab (h_table lroots ints uroot bra ket j (1 - s1)) t2 E2 V2 [k; j; i] Hok Bd.
    set (g := fun b c : state => if s1 =? 0 then get_1_sm ints uroot k b c else get_1_sp ints uroot k b c).
    assert (T3 : exists t, (if s1 =? 0 then get_sm lroots ints uroot k bra ket else get_sp lroots ints uroot k bra ket) = Ok t /\ is_table lroots bra ket k 2 t g).
    { assert (D : defined lroots bra ket k g) by (apply (ok_defined [k; j; i]); [exact Bd|cbn [In]; tauto|unfold g; isok Hok]). unfold g in *. destruct (s1 =? 0); [now apply sm_table|now apply sp_table]. }
    destruct T3 as (t3 & E3 & V3).
    atzero Hok Bd f1 f2 F1 F2 z d0 E0. clear d0 E0. unfold des in F1, F2. cbn [fst] in F1, F2.
    unfold rdm_1s1c. cbn zeta. rewrite Hf, E1, E2, E3, F1, F2. cbn [bind]. eexists. split; [reflexivity|]. intros x.
    assert (L1 : lin cb ck n [k; j; i] fd 4 (tdot 4 0 (nl lroots k bra) (nl lroots k ket) (tdot 5 2 (nl lroots j bra) (nl lroots j ket) (tdot 6 4 (nl lroots i bra) (nl lroots i ket) fd t1) t2) t3)
      (fun e e' => outer 2 (outer 1 (val (get_1_p ints uroot i (bra, e) (ket, e') s1)) (val (get_1_h ints uroot j (bra, e) (ket, e') (1 - s1)))) (val (g (bra, e) (ket, e'))))).
    { intros ix L. do 5 (destruct ix as [|? ix]; try discriminate). etransitivity; [exact (sum3 cb ck n fd k j i (fun x y => t1 [x; y; n0]) (fun x y => t2 [x; y; n1]) (fun x y => t3 [x; y; n2; n3]) Hi Hj Hkk N1 N2 N3)|].
      apply ssum_ext; auto; intros e e' _ _ R. destruct (R i) as [? ?]; [cbn [In]; tauto|]; destruct (R j) as [? ?]; [cbn [In]; tauto|]; destruct (R k) as [? ?]; [cbn [In]; tauto|]. rewrite V1, V2, V3 by (auto; reflexivity). reflexivity. }
    etransitivity.
    { apply (lin_dens cb ck n [k; j; i] fd); [apply lin1_z; auto|].
      apply lin_set2b; [apply lin_tpose; [reflexivity|]; apply lin_fmul; [exact Bd|exact Nd|]; apply lin_tpose; [reflexivity|exact L1]|].
      apply lin_set2b; [apply lin_fmul; [exact Bd|exact Nd|]; apply lin_tpose; [reflexivity|exact L1]|]. apply lin2_z; auto. }
    apply ssum_ext; auto. intros e e' Le Le' R. destruct (Hok e e' Le Le' R) as (d & E). unfold crunch_D. cbn [CrunchModel.crunch]. unfold crunch_1s1c.
    cbv zeta in E |- *. change (des nelec_rf (bra, e)) with (fermion_des_shuffle (nelec_rf bra)) in E |- *. change (des nelec_rf (ket, e')) with (fermion_des_shuffle (nelec_rf ket)) in E |- *.
    rewrite F1, F2 in E |- *. cbn [bind] in E |- *. unfold g. split_ok E. reflexivity.
  Qed.

  Lemma check_pair_ok f s (a : arr) r d : check_pair norb nz f s a r = Ok d -> r = Ok d.
  Proof. unfold check_pair. destruct (s =? 1); [auto|]. unfold py_assert. destruct (negb _); [auto|discriminate]. Qed.
  (** the assignments of _crunch_2c_ *)
  Definition put_2c (i j k l s2 s2T : nat) (a : arr) : @D2 K :=
    let d2 := set2b norb s2 i j k l a z2 in
    let d2 := set2b norb s2T k l i j (tpose [2; 3; 0; 1] a) d2 in
    if s2 =? s2T then set2b norb s2 k j i l (fmul true (tpose [2; 1; 0; 3] a)) (set2b norb s2 i l k j (fmul true (tpose [0; 3; 2; 1] a)) d2) else d2.
  Lemma lin_2c ll i j k l s2 s2T a A : (forall f, In f ll -> f < n) -> NoDup ll -> lin cb ck n ll fd 4 a A -> lin2 cb ck n ll fd (put_2c i j k l s2 s2T a) (fun e e' => put_2c i j k l s2 s2T (A e e')).
  Proof.
    intros Bd Nd L. unfold put_2c. cbn zeta.
    assert (L0 : lin2 cb ck n ll fd (set2b norb s2T k l i j (tpose [2; 3; 0; 1] a) (set2b norb s2 i j k l a z2)) (fun e e' => set2b norb s2T k l i j (tpose [2; 3; 0; 1] (A e e')) (set2b norb s2 i j k l (A e e') z2))).
    { apply lin_set2b; [apply lin_tpose; [reflexivity|exact L]|]. apply lin_set2b; [exact L|]. now apply lin2_z. }
    destruct (s2 =? s2T); [|exact L0].
    apply lin_set2b; [apply lin_fmul; [exact Bd|exact Nd|]; apply lin_tpose; [reflexivity|exact L]|].
    apply lin_set2b; [apply lin_fmul; [exact Bd|exact Nd|]; apply lin_tpose; [reflexivity|exact L]|]. exact L0.
  Qed.
  Ltac inv_ok := repeat match goal with
    | E : bind ?r _ = Ok _ |- _ => let a := fresh "a" in let X := fresh "X" in destruct r as [a|] eqn:X; cbn [bind] in E; [|discriminate E]
    | E : check_pair _ _ _ _ _ _ = Ok _ |- _ => apply check_pair_ok in E end.
  Ltac isok2 Hok := let e := fresh in let e' := fresh in let Le := fresh in let Le' := fresh in let R := fresh in let d := fresh in let E := fresh in
    intros e e' Le Le' R; destruct (Hok e e' Le Le' R) as (d & E); cbv beta zeta in E ; cbv beta; inv_ok; eexists; first [reflexivity|eassumption].
  Ltac tab2 L t E V ll Hok Bd := destruct L as (t & E & V); [apply (ok_defined ll); [exact Bd|cbn [In]; tauto|isok2 Hok]|].
  Lemma sum_2c i j k l s : i < n -> j < n -> k < n -> l < n -> i <> j -> i <> l -> k <> j -> k <> l -> fdm [i; k; l; j] [i; j; k; l] = Ok fd ->
    all_ok (rev (inv_unique [i; k; l; j])) _ (crunch 6 [i; j; k; l] (Some s)) ->
    exists d, rdm_2c lroots norb ints uroot nelec_rf fdm bra ket i j k l s = Ok d /\ forall x, d x = ssum (rev (inv_unique [i; k; l; j])) (fun e e' => crunch_D norb ints uroot nelec_rf nz 6 [i; j; k; l] (Some s) (bra, e) (ket, e') x).
  Proof.
    intros Hi Hj Hkk Hl N1 N2 N3 N4 Hf Hok.
    set (s2 := nth s [0; 1; 3] 0). set (s2T := nth s [0; 2; 3] 0). set (s11 := s2 / 2). set (s12 := s2 mod 2).
    unfold inv_unique in *. cbn [inv_unique_from existsb] in *.
    rewrite (proj2 (Nat.eqb_neq l i)), (proj2 (Nat.eqb_neq l k)), (proj2 (Nat.eqb_neq j i)), (proj2 (Nat.eqb_neq j k)) in * by congruence.
    rewrite !(Nat.eqb_sym k i) in *.
    destruct (Nat.eqb_spec i k) as [<-|Nik]; destruct (Nat.eqb_spec j l) as [<-|Njl]; cbn [Datatypes.orb inv_unique_from existsb] in *;
      rewrite ?Nat.eqb_refl, ?(proj2 (Nat.eqb_neq l i)), ?(proj2 (Nat.eqb_neq j i)), ?(proj2 (Nat.eqb_neq j l)) in * by congruence; cbn [Datatypes.orb rev app] in *.
    - assert (Bd : forall f, In f [j; i] -> f < n) by bounds. assert (Nd : NoDup [j; i]) by dist.
      change (all_ok [j; i] _ (fun b c => crunch_2c norb ints uroot nelec_rf nz b c i j i j s)) in Hok. unfold crunch_2c in Hok. rewrite !Nat.eqb_refl in Hok. cbv zeta in Hok. fold s2 s2T s11 s12 in Hok.
      tab2 (pp_table lroots ints uroot bra ket i s) t1 E1 V1 [j; i] Hok Bd.
      tab2 (hh_table lroots ints uroot bra ket j s) t2 E2 V2 [j; i] Hok Bd.
      destruct (Hok _ _ (repeat_length 0 n) (repeat_length 0 n) (zero_in _ Bd)) as (d0 & E0). cbv beta in E0. inv_ok. clear E0 d0.
      unfold rdm_2c. rewrite !Nat.eqb_refl. cbv zeta. fold s2 s2T s11 s12. rewrite Hf. cbn [bind Nat.add app seq]. rewrite E1, E2. cbn [bind].
      unfold des in *. cbn [fst] in *. repeat match goal with X : fermion_des_shuffle _ _ _ = Ok _ |- _ => rewrite X; revert X end. intros. cbn [bind Nat.add app seq]. eexists. split; [reflexivity|]. intros x.
      assert (L : lin cb ck n [j; i] fd 4 (tdot 4 2 (nl lroots j bra) (nl lroots j ket) (tpose [2; 3; 0; 1] (tdot 4 2 (nl lroots i bra) (nl lroots i ket) fd t1)) t2) (fun e e' => outer 2 (val (get_1_pp ints uroot i (bra, e) (ket, e') s)) (val (get_1_hh ints uroot j (bra, e) (ket, e') s)))).
      { intros ix L. do 5 (destruct ix as [|? ix]; try discriminate). etransitivity; [exact (sum2 cb ck n fd j i (fun x y => t1 [x; y; n0; n1]) (fun x y => t2 [x; y; n2; n3]) Hi Hj N1)|].
        apply ssum_ext; auto; intros e e' _ _ R. destruct (R i) as [? ?]; [cbn [In]; tauto|]. destruct (R j) as [? ?]; [cbn [In]; tauto|]. rewrite V1, V2 by (auto; reflexivity). reflexivity. }
      etransitivity; [apply (lin_dens cb ck n [j; i] fd); [apply lin1_z; auto|apply (lin_2c [j; i] i j i j s2 s2T); [exact Bd|exact Nd|apply lin_fmul; [exact Bd|exact Nd|]; apply lin_tpose; [reflexivity|exact L]]]|].
      apply ssum_ext; auto. intros e e' Le Le' R. destruct (Hok e e' Le Le' R) as (d & E). unfold crunch_D.
      assert (E' : crunch 6 [i; j; i; j] (Some s) (bra, e) (ket, e') = Ok d) by (change (crunch 6 [i; j; i; j] (Some s) (bra, e) (ket, e')) with (crunch_2c norb ints uroot nelec_rf nz (bra, e) (ket, e') i j i j s); unfold crunch_2c; rewrite !Nat.eqb_refl; exact E). rewrite E'. clear E'.
      cbv beta in E. inv_ok. injection E as <-. cbn [val]. unfold des in *. cbn [fst] in *. repeat match goal with X : fermion_des_shuffle ?a ?b ?c = Ok _, Y : fermion_des_shuffle ?a ?b ?c = Ok _ |- _ => rewrite X in Y; injection Y as ?; subst end. reflexivity.
    - assert (Bd : forall f, In f [j; l; i] -> f < n) by bounds. assert (Nd : NoDup [j; l; i]) by dist.
      change (all_ok [j; l; i] _ (fun b c => crunch_2c norb ints uroot nelec_rf nz b c i j i l s)) in Hok. unfold crunch_2c in Hok. rewrite Nat.eqb_refl, (proj2 (Nat.eqb_neq j l) Njl) in Hok. cbv zeta in Hok. fold s2 s2T s11 s12 in Hok.
      tab2 (pp_table lroots ints uroot bra ket i s) t1 E1 V1 [j; l; i] Hok Bd.
      tab2 (h_table lroots ints uroot bra ket l s12) t2 E2 V2 [j; l; i] Hok Bd.
      tab2 (h_table lroots ints uroot bra ket j s11) t3 E3 V3 [j; l; i] Hok Bd.
      destruct (Hok _ _ (repeat_length 0 n) (repeat_length 0 n) (zero_in _ Bd)) as (d0 & E0). cbv beta in E0. inv_ok. clear E0 d0.
      unfold rdm_2c. rewrite Nat.eqb_refl, (proj2 (Nat.eqb_neq j l) Njl). cbv zeta. fold s2 s2T s11 s12. rewrite Hf. cbn [bind Nat.add app seq]. rewrite E1, E2, E3. cbn [bind].
      unfold des in *. cbn [fst] in *. repeat match goal with X : fermion_des_shuffle _ _ _ = Ok _ |- _ => rewrite X; revert X end. intros. cbn [bind Nat.add app seq]. eexists. split; [reflexivity|]. intros x.
      assert (L : lin cb ck n [j; l; i] fd 4 (tdot 5 2 (nl lroots j bra) (nl lroots j ket) (tdot 6 4 (nl lroots l bra) (nl lroots l ket) (tpose [4; 5; 0; 1; 2; 3] (tdot 6 4 (nl lroots i bra) (nl lroots i ket) fd t1)) t2) t3) (fun e e' => outer 2 (val (get_1_pp ints uroot i (bra, e) (ket, e') s)) (outer 1 (val (get_1_h ints uroot l (bra, e) (ket, e') s12)) (val (get_1_h ints uroot j (bra, e) (ket, e') s11))))).
      { intros ix L. do 5 (destruct ix as [|? ix]; try discriminate). etransitivity; [exact (sum3 cb ck n fd j l i (fun x y => t1 [x; y; n0; n1]) (fun x y => t2 [x; y; n2]) (fun x y => t3 [x; y; n3]) Hi Hl Hj N2 N1 (not_eq_sym Njl))|].
        apply ssum_ext; auto; intros e e' _ _ R. destruct (R i) as [? ?]; [cbn [In]; tauto|]. destruct (R l) as [? ?]; [cbn [In]; tauto|]. destruct (R j) as [? ?]; [cbn [In]; tauto|]. rewrite V1, V2, V3 by (auto; reflexivity). unfold outer. cbn [firstn skipn]. ring. }
      etransitivity; [apply (lin_dens cb ck n [j; l; i] fd); [apply lin1_z; auto|apply (lin_2c [j; l; i] i j i l s2 s2T); [exact Bd|exact Nd|apply lin_fmul; [exact Bd|exact Nd|]; apply lin_tpose; [reflexivity|exact L]]]|].
      apply ssum_ext; auto. intros e e' Le Le' R. destruct (Hok e e' Le Le' R) as (d & E). unfold crunch_D.
      assert (E' : crunch 6 [i; j; i; l] (Some s) (bra, e) (ket, e') = Ok d) by (change (crunch 6 [i; j; i; l] (Some s) (bra, e) (ket, e')) with (crunch_2c norb ints uroot nelec_rf nz (bra, e) (ket, e') i j i l s); unfold crunch_2c; rewrite Nat.eqb_refl, (proj2 (Nat.eqb_neq j l) Njl); exact E). rewrite E'. clear E'.
      cbv beta in E. inv_ok. injection E as <-. cbn [val]. unfold des in *. cbn [fst] in *. repeat match goal with X : fermion_des_shuffle ?a ?b ?c = Ok _, Y : fermion_des_shuffle ?a ?b ?c = Ok _ |- _ => rewrite X in Y; injection Y as ?; subst end. reflexivity.
    - assert (Bd : forall f, In f [j; k; i] -> f < n) by bounds. assert (Nd : NoDup [j; k; i]) by dist.
      change (all_ok [j; k; i] _ (fun b c => crunch_2c norb ints uroot nelec_rf nz b c i j k j s)) in Hok. unfold crunch_2c in Hok. rewrite (proj2 (Nat.eqb_neq i k) Nik), Nat.eqb_refl in Hok. cbv zeta in Hok. fold s2 s2T s11 s12 in Hok.
      tab2 (p_table lroots ints uroot bra ket i s11) t1 E1 V1 [j; k; i] Hok Bd.
      tab2 (p_table lroots ints uroot bra ket k s12) t2 E2 V2 [j; k; i] Hok Bd.
      tab2 (hh_table lroots ints uroot bra ket j s) t3 E3 V3 [j; k; i] Hok Bd.
      destruct (Hok _ _ (repeat_length 0 n) (repeat_length 0 n) (zero_in _ Bd)) as (d0 & E0). cbv beta in E0. inv_ok. clear E0 d0.
      unfold rdm_2c. rewrite (proj2 (Nat.eqb_neq i k) Nik), Nat.eqb_refl. cbv zeta. fold s2 s2T s11 s12. rewrite Hf. cbn [bind Nat.add app seq]. rewrite E1, E2, E3. cbn [bind].
      unfold des in *. cbn [fst] in *. repeat match goal with X : fermion_des_shuffle _ _ _ = Ok _ |- _ => rewrite X; revert X end. intros. cbn [bind Nat.add app seq]. eexists. split; [reflexivity|]. intros x.
      assert (L : lin cb ck n [j; k; i] fd 4 (tdot 4 2 (nl lroots j bra) (nl lroots j ket) (tpose [2; 3; 0; 1] (tdot 5 2 (nl lroots k bra) (nl lroots k ket) (tdot 6 4 (nl lroots i bra) (nl lroots i ket) fd t1) t2)) t3) (fun e e' => outer 2 (outer 1 (val (get_1_p ints uroot i (bra, e) (ket, e') s11)) (val (get_1_p ints uroot k (bra, e) (ket, e') s12))) (val (get_1_hh ints uroot j (bra, e) (ket, e') s)))).
      { intros ix L. do 5 (destruct ix as [|? ix]; try discriminate). etransitivity; [exact (sum3 cb ck n fd j k i (fun x y => t1 [x; y; n0]) (fun x y => t2 [x; y; n1]) (fun x y => t3 [x; y; n2; n3]) Hi Hkk Hj Nik N1 N3)|].
        apply ssum_ext; auto; intros e e' _ _ R. destruct (R i) as [? ?]; [cbn [In]; tauto|]. destruct (R k) as [? ?]; [cbn [In]; tauto|]. destruct (R j) as [? ?]; [cbn [In]; tauto|]. rewrite V1, V2, V3 by (auto; reflexivity). reflexivity. }
      etransitivity; [apply (lin_dens cb ck n [j; k; i] fd); [apply lin1_z; auto|apply (lin_2c [j; k; i] i j k j s2 s2T); [exact Bd|exact Nd|apply lin_fmul; [exact Bd|exact Nd|]; apply lin_tpose; [reflexivity|exact L]]]|].
      apply ssum_ext; auto. intros e e' Le Le' R. destruct (Hok e e' Le Le' R) as (d & E). unfold crunch_D.
      assert (E' : crunch 6 [i; j; k; j] (Some s) (bra, e) (ket, e') = Ok d) by (change (crunch 6 [i; j; k; j] (Some s) (bra, e) (ket, e')) with (crunch_2c norb ints uroot nelec_rf nz (bra, e) (ket, e') i j k j s); unfold crunch_2c; rewrite (proj2 (Nat.eqb_neq i k) Nik), Nat.eqb_refl; exact E). rewrite E'. clear E'.
      cbv beta in E. inv_ok. injection E as <-. cbn [val]. unfold des in *. cbn [fst] in *. repeat match goal with X : fermion_des_shuffle ?a ?b ?c = Ok _, Y : fermion_des_shuffle ?a ?b ?c = Ok _ |- _ => rewrite X in Y; injection Y as ?; subst end. reflexivity.
    - assert (Bd : forall f, In f [j; l; k; i] -> f < n) by bounds. assert (Nd : NoDup [j; l; k; i]) by dist.
      change (all_ok [j; l; k; i] _ (fun b c => crunch_2c norb ints uroot nelec_rf nz b c i j k l s)) in Hok. unfold crunch_2c in Hok. rewrite (proj2 (Nat.eqb_neq i k) Nik), (proj2 (Nat.eqb_neq j l) Njl) in Hok. cbv zeta in Hok. fold s2 s2T s11 s12 in Hok.
      tab2 (p_table lroots ints uroot bra ket i s11) t1 E1 V1 [j; l; k; i] Hok Bd.
      tab2 (p_table lroots ints uroot bra ket k s12) t2 E2 V2 [j; l; k; i] Hok Bd.
      tab2 (h_table lroots ints uroot bra ket l s12) t3 E3 V3 [j; l; k; i] Hok Bd.
      tab2 (h_table lroots ints uroot bra ket j s11) t4 E4 V4 [j; l; k; i] Hok Bd.
      destruct (Hok _ _ (repeat_length 0 n) (repeat_length 0 n) (zero_in _ Bd)) as (d0 & E0). cbv beta in E0. inv_ok. clear E0 d0.
      unfold rdm_2c. rewrite (proj2 (Nat.eqb_neq i k) Nik), (proj2 (Nat.eqb_neq j l) Njl). cbv zeta. fold s2 s2T s11 s12. rewrite Hf. cbn [bind Nat.add app seq]. rewrite E1, E2, E3, E4. cbn [bind].
      unfold des in *. cbn [fst] in *. repeat match goal with X : fermion_des_shuffle _ _ _ = Ok _ |- _ => rewrite X; revert X end. intros. cbn [bind Nat.add app seq]. eexists. split; [reflexivity|]. intros x.
      assert (L : lin cb ck n [j; l; k; i] fd 4 (tdot 5 2 (nl lroots j bra) (nl lroots j ket) (tdot 6 4 (nl lroots l bra) (nl lroots l ket) (tpose [4; 5; 0; 1; 2; 3] (tdot 7 4 (nl lroots k bra) (nl lroots k ket) (tdot 8 6 (nl lroots i bra) (nl lroots i ket) fd t1) t2)) t3) t4) (fun e e' => outer 2 (outer 1 (val (get_1_p ints uroot i (bra, e) (ket, e') s11)) (val (get_1_p ints uroot k (bra, e) (ket, e') s12))) (outer 1 (val (get_1_h ints uroot l (bra, e) (ket, e') s12)) (val (get_1_h ints uroot j (bra, e) (ket, e') s11))))).
      { intros ix L. do 5 (destruct ix as [|? ix]; try discriminate). etransitivity; [exact (sum4 cb ck n fd j l k i (fun x y => t1 [x; y; n0]) (fun x y => t2 [x; y; n1]) (fun x y => t3 [x; y; n2]) (fun x y => t4 [x; y; n3]) Hi Hkk Hl Hj Nik N2 N1 N4 N3 (not_eq_sym Njl))|].
        apply ssum_ext; auto; intros e e' _ _ R. destruct (R i) as [? ?]; [cbn [In]; tauto|]. destruct (R k) as [? ?]; [cbn [In]; tauto|]. destruct (R l) as [? ?]; [cbn [In]; tauto|]. destruct (R j) as [? ?]; [cbn [In]; tauto|]. rewrite V1, V2, V3, V4 by (auto; reflexivity). unfold outer. cbn [firstn skipn]. ring. }
      etransitivity; [apply (lin_dens cb ck n [j; l; k; i] fd); [apply lin1_z; auto|apply (lin_2c [j; l; k; i] i j k l s2 s2T); [exact Bd|exact Nd|apply lin_fmul; [exact Bd|exact Nd|]; apply lin_tpose; [reflexivity|exact L]]]|].
      apply ssum_ext; auto. intros e e' Le Le' R. destruct (Hok e e' Le Le' R) as (d & E). unfold crunch_D.
      assert (E' : crunch 6 [i; j; k; l] (Some s) (bra, e) (ket, e') = Ok d) by (change (crunch 6 [i; j; k; l] (Some s) (bra, e) (ket, e')) with (crunch_2c norb ints uroot nelec_rf nz (bra, e) (ket, e') i j k l s); unfold crunch_2c; rewrite (proj2 (Nat.eqb_neq i k) Nik), (proj2 (Nat.eqb_neq j l) Njl); exact E). rewrite E'. clear E'.
      cbv beta in E. inv_ok. injection E as <-. cbn [val]. unfold des in *. cbn [fst] in *. repeat match goal with X : fermion_des_shuffle ?a ?b ?c = Ok _, Y : fermion_des_shuffle ?a ?b ?c = Ok _ |- _ => rewrite X in Y; injection Y as ?; subst end. reflexivity.
  Qed.
End CrunchSum.
