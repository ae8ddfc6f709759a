(** A CI array with a dummy orbital is a product state of two fragments, the second one being the dummy orbital. *)
From Coq Require Import List ZArith NArith Arith Bool Lia Ring Btauto.
From Verif Require Import Base Star FockSpec FockFacts FockOps LprodSpec LasFock LasElem DetModel DetFacts DetDummy CrunchModel CrunchSpec CrunchFacts CrunchAll HalfSpec HalfModel.
Import ListNotations.
Local Open Scope nat_scope.

Lemma count_bits (d : N) from n : DetModel.count (bits d from n) = LprodSpec.count (bt d) (seq from n).
Proof.
  unfold bits, LprodSpec.count. assert (G : forall a, DetModel.count (map (fun k => bt d (from + k)) (seq a n)) = length (filter (bt d) (seq (from + a) n))).
  { induction n as [|n IH]; intros a; cbn [seq map DetModel.count filter]; [reflexivity|]. rewrite IH, Nat.add_succ_r. destruct (bt d (from + a)); reflexivity. }
  rewrite (G 0), Nat.add_0_r. reflexivity.
Qed.
Lemma bits_length d from n : length (bits d from n) = n.
Proof. unfold bits. rewrite map_length, seq_length. reflexivity. Qed.
Lemma bits_snoc d from n : bits d from (n + 1) = bits d from n ++ [bt d (from + n)].
Proof. unfold bits. rewrite seq_app, map_app. reflexivity. Qed.
Lemma bits_ext d e from from' n : (forall k, k < n -> bt d (from + k) = bt e (from' + k)) -> bits d from n = bits e from' n.
Proof. intros H. apply map_ext_in. intros k Hk. apply in_seq in Hk. apply H. lia. Qed.

Section Facts.
  Context {K : star_ring}.
  Add Ring Kr : (sring K).
  Notation mat := (DetModel.mat K).

  Lemma civec_nelec n ne (c : mat) : has_nelec K n ne (civec n ne c).
  Proof.
    intros d _. unfold civec. rewrite !count_bits. destruct (Nat.eqb_spec (LprodSpec.count (bt d) (seq n n)) (fst ne)); [|left; reflexivity].
    destruct (Nat.eqb_spec (LprodSpec.count (bt d) (seq 0 n)) (snd ne)); [right; auto|left; reflexivity].
  Qed.

  (** bra and ket with electron numbers of their own *)
  Definition melem2 (n : nat) (nb nk : nat * nat) (bra ket : mat) (ops : list opr) : K :=
    inner K (2 * n) (civec n nb bra) (lops K (fun _ => n) ops (civec n nk ket)).
  Definition two (m f : nat) : nat := if f =? 0 then m else 1.
  Definition dum (oa ob : bool) : vec K := fun d => if eqb (bt d 1) oa && eqb (bt d 0) ob then s1 else s0.
  Definition ext (v : vec K) (oa ob : bool) (f : nat) : vec K := if f =? 0 then v else dum oa ob.
  Definition extn (ne : nat * nat) (oa ob : bool) (f : nat) : nat * nat := if f =? 0 then ne else (b2n oa, b2n ob).

  Lemma dum_nelec oa ob : has_nelec K 1 (b2n oa, b2n ob) (dum oa ob).
  Proof.
    intros d _. unfold dum. cbn [seq LprodSpec.count filter fst snd]. unfold LprodSpec.count. cbn [filter].
    destruct (bt d 1), (bt d 0), oa, ob; cbn; auto.
  Qed.
  Lemma ext_nelec m ne c oa ob f : f < 2 -> has_nelec K (two m f) (extn ne oa ob f) (ext (civec m ne c) oa ob f).
  Proof. intros H. destruct f as [|[|f]]; [apply civec_nelec|apply dum_nelec|lia]. Qed.

  Lemma p_neg_odd m na nb oa ob : p_neg (dummy_orbital_params m (na, nb) oa ob) = ob && Nat.odd na.
  Proof.
    cbn [dummy_orbital_params p_neg fst snd]. destruct ob; cbn [b2n andb]; [|reflexivity]. rewrite Nat.mul_1_l, <- Nat.bit0_mod, Nat.bit0_odd. destruct (Nat.odd na); reflexivity.
  Qed.
  Lemma spar_two ne oa ob : spar 2 (extn ne oa ob) = ob && Nat.odd (fst ne).
  Proof.
    unfold spar. cbn [seq parity fold_right]. unfold extn. cbn [Nat.eqb fst snd Nat.ltb Nat.leb andb xorb]. destruct (Nat.odd (fst ne)), oa, ob; reflexivity.
  Qed.
  Lemma civec_add m ne (c : mat) oa ob d :
    civec (m + 1) (fst ne + b2n oa, snd ne + b2n ob) (add1 c m ne oa ob) d = sg K (spar 2 (extn ne oa ob)) (las_state K 2 (two m) (ext (civec m ne c) oa ob) d).
  Proof.
    rewrite spar_two. destruct ne as [na nb]. cbn [fst snd]. unfold las_state. cbn [seq bprod fold_right ext Nat.eqb].
    set (e := frag_det 2 (two m) 0 d). set (g := frag_det 2 (two m) 1 d).
    assert (N2 : norb 2 (two m) = m + 1) by (unfold norb, offn; cbn; lia).
    assert (Ba : bits d (m + 1) (m + 1) = bits e m m ++ [bt g 1]).
    { rewrite bits_snoc. f_equal.
      - apply bits_ext. intros k Hk. symmetry. refine (eq_trans (bt_frag_det 2 (two m) 0 d false k _ _) _); [lia|exact Hk|]. unfold gorb. rewrite N2. f_equal. cbn. lia.
      - f_equal. symmetry. refine (eq_trans (bt_frag_det 2 (two m) 1 d false 0 _ _) _); [lia|cbn; lia|]. unfold gorb. rewrite N2. f_equal. unfold offn. cbn. lia. }
    assert (Bb : bits d 0 (m + 1) = bits e 0 m ++ [bt g 0]).
    { rewrite bits_snoc. f_equal.
      - apply bits_ext. intros k Hk. symmetry. refine (eq_trans (bt_frag_det 2 (two m) 0 d true k _ _) _); [lia|exact Hk|]. unfold gorb. f_equal.
      - f_equal. symmetry. refine (eq_trans (bt_frag_det 2 (two m) 1 d true 0 _ _) _); [lia|cbn; lia|]. unfold gorb. f_equal. unfold offn. cbn. lia. }
    unfold civec, dum. cbv zeta. rewrite Ba, Bb, !DetFacts.count_app. cbn [fst snd DetModel.count]. rewrite !Nat.add_0_r.
    set (a := bits e m m). set (b := bits e 0 m). change (if bt g 1 then 1 else 0) with (b2n (bt g 1)). change (if bt g 0 then 1 else 0) with (b2n (bt g 0)).
    destruct (Nat.eqb_spec (DetModel.count a + b2n (bt g 1)) (na + b2n oa)) as [Ea|Ea].
    - destruct (Nat.eqb_spec (DetModel.count b + b2n (bt g 0)) (nb + b2n ob)) as [Eb|Eb]; cbn [andb].
      + rewrite <- Ea, <- Eb. rewrite !addr_top by apply bits_length. unfold add1.
        rewrite add_one_at; auto; try (apply addr_lt; [apply bits_length|reflexivity]). rewrite p_neg_odd. unfold sgn_mul.
        destruct (eqb_spec (bt g 1) oa) as [Xa|Xa]; cbn [andb].
        * rewrite Xa in Ea. assert (Ca : DetModel.count a = na) by lia. rewrite Ca, Nat.eqb_refl. cbn [andb].
          destruct (eqb_spec (bt g 0) ob) as [Xb|Xb].
          { rewrite Xb in Eb. assert (Cb : DetModel.count b = nb) by lia. rewrite Cb, Nat.eqb_refl. unfold sg. destruct (ob && Nat.odd na); ring. }
          { unfold sg. destruct (ob && Nat.odd na); ring. }
        * unfold sg. destruct (ob && Nat.odd na); ring.
      + destruct (eqb_spec (bt g 1) oa), (eqb_spec (bt g 0) ob) as [Xb|Xb]; cbn [andb]; try (unfold sg; destruct (ob && Nat.odd na); ring).
        destruct (Nat.eqb_spec (DetModel.count b) nb); [exfalso; rewrite Xb in Eb; lia|]. rewrite andb_false_r. unfold sg; destruct (ob && Nat.odd na); ring.
    - cbn [andb]. destruct (eqb_spec (bt g 1) oa) as [Xa|Xa]; cbn [andb]; [|unfold sg; destruct (ob && Nat.odd na); ring].
      destruct (Nat.eqb_spec (DetModel.count a) na); [exfalso; rewrite Xa in Ea; lia|]. cbn [andb]. unfold sg; destruct (ob && Nat.odd na); ring.
  Qed.

  (** orbital m of fragment 0 is the orbital of fragment 1 *)
  Definition tof (m : nat) (x : opr) : opr := let '(k, (f, dn, l)) := x in if l =? m then (k, (1, dn, 0)) else (k, (0, dn, l)).
  Definition ok0 (n : nat) (x : opr) : Prop := opfrag x = 0 /\ snd (snd x) < n.
  Lemma lops_gops m ops (v : vec K) : Forall (ok0 (m + 1)) ops -> lops K (fun _ => m + 1) ops v = gops K 2 (two m) (map (tof m) ops) v.
  Proof.
    induction 1 as [|[k [[f dn] l]] r [H1 H2] _ IH]; [reflexivity|]. cbn [lops fold_right map gops] in *. unfold lops, gops in IH. rewrite IH. cbn in H1, H2. subst f.
    assert (N2 : norb 2 (two m) = m + 1) by (unfold norb, offn; cbn; lia).
    unfold tof at 2. destruct (Nat.eqb_spec l m) as [->|Hl]; rewrite N2; unfold gorb, lorb; rewrite N2; f_equal; unfold offn; cbn; destruct dn; lia.
  Qed.
  Lemma tof_ok m ops : Forall (ok0 (m + 1)) ops -> Forall (okop 2 (two m)) (map (tof m) ops).
  Proof.
    induction 1 as [|[k [[f dn] l]] r [H1 H2] _ IH]; cbn [map]; constructor; auto. cbn in H1, H2. unfold tof. destruct (Nat.eqb_spec l m); cbn; lia.
  Qed.
  Lemma lops_ext0 m n ops (v : vec K) : Forall (fun x => opfrag x = 0) ops -> n 0 = m -> lops K n ops v = lops K (fun _ => m) ops v.
  Proof.
    intros H E. induction H as [|[k [[f dn] l]] r H1 _ IH]; [reflexivity|]. cbn [lops fold_right] in *. unfold lops in IH. rewrite IH. cbn in H1. subst f. unfold lorb. rewrite E. reflexivity.
  Qed.

  Definition dumel (pa pb qa qb : bool) (ops : list opr) : K := inner K 2 (dum pa pb) (lops K (fun _ => 1) ops (dum qa qb)).
  Definition dsign (q : bool) (fs : list nat) : bool := rsign 2 (fun _ => true) (fun f => if f =? 0 then false else q) fs.
  Lemma dsign_par m ops ne qa qb : Forall (okop 2 (two m)) ops -> rsign 2 (fun _ => true) (par (extn ne qa qb)) (map opfrag ops) = dsign (xorb qa qb) (map opfrag ops).
  Proof.
    unfold dsign. induction 1 as [|[k [[f dn] l]] r [H _] _ IH]; [reflexivity|]. cbn [map rsign]. rewrite IH. f_equal. f_equal. unfold opfrag. cbn [fst snd].
    unfold abv. cbn [seq parity fold_right]. unfold par, extn. destruct f as [|[|f]]; [| |lia]; cbn [Nat.ltb Nat.leb andb Nat.eqb fst snd xorb]; [|reflexivity].
    destruct qa, qb; reflexivity.
  Qed.
  Lemma gops_sgv nf n b ops (v w : vec K) : (forall d, v d = sg K b (w d)) -> forall d, gops K nf n ops v d = sg K b (gops K nf n ops w d).
  Proof.
    intros H. induction ops as [|[k [[f dn] l]] r IH]; [exact H|]. intros d.
    change (field K (2 * norb nf n) (gorb nf n f dn l) k (gops K nf n r v) d = sg K b (field K (2 * norb nf n) (gorb nf n f dn l) k (gops K nf n r w) d)).
    unfold field. destruct k; unfold cre, ann; destruct (bt d (gorb nf n f dn l)); rewrite ?IH; unfold sg; destruct b; try destruct (above _ d _); ring.
  Qed.
  Lemma step m nb nk (bra ket : mat) pa pb qa qb ops : Forall (ok0 (m + 1)) ops ->
    melem2 (m + 1) (fst nb + b2n pa, snd nb + b2n pb) (fst nk + b2n qa, snd nk + b2n qb) (add1 bra m nb pa pb) (add1 ket m nk qa qb) ops =
    sg K (dsign (xorb qa qb) (map opfrag (map (tof m) ops))) (smul (melem2 m nb nk bra ket (at_frag 0 (map (tof m) ops))) (dumel pa pb qa qb (map (fun x => (fst x, (0, snd (fst (snd x)), snd (snd x)))) (at_frag 1 (map (tof m) ops))))).
  Proof.
    intros H. unfold melem2. rewrite lops_gops by auto. pose proof (tof_ok m ops H) as Hok.
    set (L := map (tof m) ops) in *. assert (N2 : 2 * (m + 1) = 2 * norb 2 (two m)) by (unfold norb, offn; cbn; lia). rewrite N2.
    pose proof (elem_factor 2 (two m) K (ext (civec m nb bra) pa pb) (extn nb pa pb) (ext (civec m nk ket) qa qb) (extn nk qa qb) L) as F.
    specialize (F (fun f Hf => ext_nelec m nb bra pa pb f Hf) (fun f Hf => ext_nelec m nk ket qa qb f Hf) Hok). unfold elem in F.
    rewrite (inner_ext K _ _ (fun d => sg K (spar 2 (extn nb pa pb)) (las_state K 2 (two m) (ext (civec m nb bra) pa pb) d)) _
      (fun d => sg K (spar 2 (extn nk qa qb)) (gops K 2 (two m) L (las_state K 2 (two m) (ext (civec m nk ket) qa qb)) d))).
    2: intros d _; apply civec_add. 2: intros d _; apply gops_sgv; intros e; apply civec_add.
    assert (E : forall b c (u v : vec K), inner K (2 * norb 2 (two m)) (fun d => sg K b (u d)) (fun d => sg K c (v d)) = sg K (xorb b c) (inner K (2 * norb 2 (two m)) u v)).
    { intros b c u v. unfold inner. transitivity (bsum (dets (2 * norb 2 (two m))) (fun d => smul (sg K (xorb b c) s1) (smul (sconj (u d)) (v d)))).
      - apply bsum_ext. intros d _. rewrite sg_conj. unfold sg. destruct b, c; cbn [xorb]; ring.
      - rewrite <- bsum_mul_l. unfold sg. destruct (xorb b c); ring. }
    rewrite E, F, (dsign_par m) by auto. rewrite !sg_sg.
    replace (xorb (xorb (spar 2 (extn nb pa pb)) (spar 2 (extn nk qa qb))) (xorb (xorb (spar 2 (extn nb pa pb)) (spar 2 (extn nk qa qb))) (dsign (xorb qa qb) (map opfrag L)))) with (dsign (xorb qa qb) (map opfrag L)) by btauto.
    f_equal. cbn [seq bprod fold_right]. unfold floc at 1 2. unfold ext. cbn [two Nat.eqb].
    rewrite (lops_ext0 m (two m)); [|apply Forall_forall; intros x Hx; apply filter_In in Hx as [_ Hx]; apply Nat.eqb_eq in Hx; exact Hx|reflexivity].
    unfold dumel. match goal with |- context [smul ?x s1] => replace (smul x s1) with x by ring end. f_equal. f_equal.
    assert (HA : Forall (fun x => opfrag x = 1) (at_frag 1 L)) by (apply Forall_forall; intros x Hx; apply filter_In in Hx as [_ Hx]; apply Nat.eqb_eq in Hx; exact Hx).
    induction HA as [|[k [[f dn] l]] r H1 _ IH]; [reflexivity|]. cbn [lops fold_right map fst snd] in *. unfold lops in IH. rewrite IH. cbn in H1. subst f. reflexivity.
  Qed.
End Facts.
