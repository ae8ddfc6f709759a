(** The spin-adapted selection rule. *)
From Coq Require Import List ZArith Lia Bool Arith.
From Verif Require Import Base BaseFacts SCModel SCSpec SCFacts.
Import ListNotations.
Local Open Scope Z_scope.

Definition quad := (((Z * Z) * (Z * Z)) * (Z * Z))%type.
Definition qdn (q : quad) : Z :=
  Z.abs (fst (fst (fst q)) - fst (snd (fst q))) + Z.abs (snd (fst (fst q)) - snd (snd (fst q))).
Definition qds (q : quad) : Z := Z.abs (fst (snd q) - snd (snd q)).
Definition qextra (q : quad) : Z := if qdn q <? qds q then (qds q - qdn q) / 2 else 0.

Lemma sladder_loop_ok c l : Forall (fun q => (qds q - qdn q) mod 2 = 0) l -> forall sl,
  sladder_loop c l sl = Ok (sl - sumZ (map qextra l)).
Proof.
  induction 1 as [|[[[ba bb] [ka kb]] [s s']] l Hq Hl IH]; intros sl; cbn [sladder_loop map sumZ].
  - f_equal. lia.
  - unfold qextra at 1. unfold qds, qdn in *. cbn [fst snd] in *. cbv zeta.
    destruct (Z.ltb_spec (Z.abs (ba - ka) + Z.abs (bb - kb)) (Z.abs (s - s'))).
    + rewrite Hq, Z.eqb_refl. cbn [negb]. rewrite andb_false_r, IH. f_equal. lia.
    + rewrite IH. f_equal; lia.
Qed.

Lemma sladder_loop_sym c l : forall sl,
  sladder_loop c (map (fun q : quad => ((snd (fst q), fst (fst q)), (snd (snd q), fst (snd q)))) l) sl
  = sladder_loop c l sl.
Proof.
  induction l as [|[[[ba bb] [ka kb]] [s s']] l IH]; intros sl; cbn [map sladder_loop fst snd]; auto.
  cbv zeta.
  replace (Z.abs (ka - ba) + Z.abs (kb - bb)) with (Z.abs (ba - ka) + Z.abs (bb - kb)) by lia.
  replace (Z.abs (s' - s)) with (Z.abs (s - s')) by lia. rewrite !IH. auto.
Qed.

Lemma combine_swap {A B} (a : list A) : forall b : list B,
  combine b a = map (fun p => (snd p, fst p)) (combine a b).
Proof. induction a as [|x a IH]; intros [|y b]; cbn; auto. rewrite IH. auto. Qed.

Lemma combine_map {A B C D} (f : A -> C) (g : B -> D) a : forall b,
  combine (map f a) (map g b) = map (fun p => (f (fst p), g (snd p))) (combine a b).
Proof. induction a as [|x a IH]; intros [|y b]; cbn; auto. rewrite IH. auto. Qed.

Lemma coupled_s_sym bra ket sb sk :
  is_interaction_coupled_s bra ket sb sk = is_interaction_coupled_s ket bra sk sb.
Proof.
  unfold is_interaction_coupled_s. rewrite !sc_sums_eq.
  rewrite (psum_opp true bra ket), (psum_opp false bra ket), (psum_gabs_sym true bra ket), (psum_gabs_sym false bra ket).
  replace (- psum (gdiff true) bra ket =? 0) with (psum (gdiff true) bra ket =? 0)
    by (destruct (Z.eqb_spec (psum (gdiff true) bra ket) 0), (Z.eqb_spec (- psum (gdiff true) bra ket) 0); auto; lia).
  replace (- psum (gdiff false) bra ket =? 0) with (psum (gdiff false) bra ket =? 0)
    by (destruct (Z.eqb_spec (psum (gdiff false) bra ket) 0), (Z.eqb_spec (- psum (gdiff false) bra ket) 0); auto; lia).
  rewrite (combine_swap bra ket), (combine_swap sb sk), combine_map.
  rewrite <- (sladder_loop_sym _ (combine (combine bra ket) (combine sb sk))). auto.
Qed.

(** parity of multiplicity and electron number *)
Definition smult_ok (o : occ) (s : list Z) : Prop :=
  Forall2 (fun x sm => (sm - (fst x + snd x)) mod 2 = 1) o s.

Lemma quads_parity bra ket sb sk : smult_ok bra sb -> smult_ok ket sk ->
  Forall (fun q => (qds q - qdn q) mod 2 = 0) (combine (combine bra ket) (combine sb sk)).
Proof.
  intros H1 H2. revert ket sk H2. induction H1 as [|[ba bb] s bra sb Hs Hr IH]; intros ket sk H2; [constructor|].
  destruct H2 as [|[ka kb] s' ket sk Hs' Hr']; [constructor|]. cbn [combine]. constructor; auto.
  unfold qds, qdn. cbn [fst snd] in *.
  set (P := Z.abs (s - s') - (Z.abs (ba - ka) + Z.abs (bb - kb))).
  assert (E : exists z, P = 2 * z).
  { assert (H1 := Z.div_mod (s - (ba + bb)) 2 ltac:(lia)). assert (H2 := Z.div_mod (s' - (ka + kb)) 2 ltac:(lia)).
    rewrite Hs in H1. rewrite Hs' in H2. unfold P.
    set (u := (s - (ba + bb)) / 2) in *. set (v := (s' - (ka + kb)) / 2) in *.
    destruct (Z.abs_eq_or_opp (s - s')) as [-> | ->], (Z.abs_eq_or_opp (ba - ka)) as [-> | ->],
      (Z.abs_eq_or_opp (bb - kb)) as [-> | ->].
    - exists (u - v). lia.
    - exists (u - v + bb - kb). lia.
    - exists (u - v + ba - ka). lia.
    - exists (u - v + ba - ka + bb - kb). lia.
    - exists (v - u + ka - ba + kb - bb). lia.
    - exists (v - u + ka - ba). lia.
    - exists (v - u + kb - bb). lia.
    - exists (v - u). lia. }
  destruct E as [z ->]. rewrite Z.mul_comm. apply Z.mod_mul. lia.
Qed.

(** room for spin: [e] extra two-operator pairs on each fragment *)
Definition spin_room (bra ket : occ) (sb sk : list Z) (e : list nat) : Prop :=
  Forall2 (fun q n => qds q <= qdn q + 2 * Z.of_nat n) (combine (combine bra ket) (combine sb sk)) e.

Lemma extra_room l : Forall (fun q => (qds q - qdn q) mod 2 = 0) l ->
  (exists e, Forall2 (fun q n => qds q <= qdn q + 2 * Z.of_nat n) l e /\
     Z.of_nat (fold_right Nat.add 0%nat e) = sumZ (map qextra l)) /\
  (forall e, Forall2 (fun q n => qds q <= qdn q + 2 * Z.of_nat n) l e ->
     sumZ (map qextra l) <= Z.of_nat (fold_right Nat.add 0%nat e)).
Proof.
  induction 1 as [|q l Hq Hl [(e & He & Hs) IH2]].
  - split; [exists []; split; [constructor|reflexivity]|]. intros e He. inversion He. cbn. lia.
  - assert (Hx := Z.div_mod (qds q - qdn q) 2 ltac:(lia)). rewrite Hq in Hx.
    assert (Hx0 : 0 <= qextra q) by (unfold qextra; destruct (Z.ltb_spec (qdn q) (qds q)); lia).
    split.
    + exists (Z.to_nat (qextra q) :: e). cbn [map sumZ fold_right]. split; [|lia].
      constructor; auto. rewrite Z2Nat.id by auto. unfold qextra. destruct (Z.ltb_spec (qdn q) (qds q)); lia.
    + intros e' He'. inversion He' as [|? n ? e'' Hn He'' ]; subst. cbn [map sumZ fold_right].
      specialize (IH2 e'' He''). unfold qextra at 1. destruct (Z.ltb_spec (qdn q) (qds q)); lia.
Qed.

Lemma coupled_s_spec bra ket sb sk : length bra = length ket -> occ_ok bra ->
  smult_ok bra sb -> smult_ok ket sk ->
  exists c, is_interaction_coupled_s bra ket sb sk = Ok c /\
  (c = true <-> exists k e, reach k ket bra /\ spin_room bra ket sb sk e /\
     (k + fold_right Nat.add 0 e <= 2)%nat).
Proof.
  intros Hl Hok H1 H2.
  assert (Hp := quads_parity bra ket sb sk H1 H2).
  destruct (extra_room _ Hp) as [(e & He & Hse) Hmin].
  unfold is_interaction_coupled_s. rewrite sc_sums_eq.
  pose proof (psum_abs_nonneg true bra ket). pose proof (psum_abs_nonneg false bra ket).
  pose proof (psum_parity true bra ket) as Pt. pose proof (psum_parity false bra ket) as Pf.
  set (d := psum (gabs true) bra ket + psum (gabs false) bra ket) in *.
  set (c := (psum (gdiff true) bra ket =? 0) && (psum (gdiff false) bra ket =? 0) && (d <=? 4)).
  assert (Hc : c = true <-> psum (gdiff true) bra ket = 0 /\ psum (gdiff false) bra ket = 0 /\ d <= 4).
  { unfold c. rewrite !andb_true_iff, !Z.eqb_eq, Z.leb_le. tauto. }
  assert (Heven : c = true -> exists z, d = 2 * z).
  { intros Hct. apply Hc in Hct as (Et & Ef & _). rewrite Et in Pt. rewrite Ef in Pf.
    change (Z.even 0) with true in *. apply Z.even_spec in Pt as [p Pp], Pf as [q Qq].
    exists (p + q). unfold d. lia. }
  assert (E3 : c && (d =? 3) = false).
  { destruct c; auto. cbn [andb]. apply Z.eqb_neq. destruct (Heven eq_refl). lia. }
  rewrite E3, sladder_loop_ok by auto. cbn [bind].
  eexists. split; [reflexivity|]. rewrite andb_true_iff, Z.leb_le. split.
  - intros [Hct Hsl]. destruct (Heven Hct) as [z Hz]. apply Hc in Hct as (Et & Ef & Hd).
    exists (Z.to_nat z), e. split; [|split; auto].
    + apply reach_of_diff; auto. fold d. lia.
    + assert (Hzl : z <= 2) by lia. destruct (Z.ltb_spec 2 d), (Z.ltb_spec 0 d); lia.
  - intros (k & e' & Hr & He' & Hk). specialize (Hmin e' He').
    apply diff_of_reach in Hr as (_ & Et & Ef & Hd). fold d in Hd.
    assert (Hct : c = true) by (apply Hc; lia).
    split; auto. destruct (Heven Hct) as [z Hz]. destruct (Z.ltb_spec 2 d), (Z.ltb_spec 0 d); lia.
Qed.
