(** Hash contract, filter_spaces, combination of excitations, Sz rotation, spin orthogonality. *)
From Coq Require Import List ZArith Lia Bool Sorting.Sorted Sorting.Permutation.
From Verif Require Import Base BaseFacts SpacesModel SpacesSpec SpacesTables SpacesCoupling
  SpacesHop SpacesEnum SpacesClosure.
Import ListNotations.
Local Open Scope Z_scope.

(** ** C07 *)
Lemma eq_hash_same_entmap s t :
  sp_entmap s = sp_entmap t -> space_eqb s t = true -> hash_key s = hash_key t.
Proof.
  unfold space_eqb, hash_key. intros HE.
  destruct (Nat.eqb_spec (length (sp_frags s)) (length (sp_frags t))) as [HL|]; [|discriminate].
  cbn [negb]. rewrite !andb_true_iff, !list_eqb_eq. intros [[-> ->] ->]. rewrite HL, HE. auto.
Qed.

(** ** C08 *)
Lemma s2of_nonneg smults : Forall (fun S => 1 <= S) smults -> Forall (fun x => 0 <= x) (s2of smults).
Proof. unfold s2of; induction 1; cbn; constructor; auto. lia. Qed.

Definition lim_ok (hi lo : option Z) (l : list Z) : Prop :=
  forall x, In x l -> (forall b, hi = Some b -> x <= b) /\ (forall b, lo = Some b -> b <= x).

Lemma filter_limits mxc mnc mxs mns charges smults :
  filter_keep mxc mnc mxs mns None None charges smults = true <->
  lim_ok mxc mnc charges /\ lim_ok mxs mns smults.
Proof.
  unfold filter_keep. rewrite !andb_true_r.
  assert (HL : forall (o : option Z) (p : Z -> Z -> bool) l,
     match o with None => true | Some b => forallb (fun x => p x b) l end = true <->
     forall x b, In x l -> o = Some b -> p x b = true).
  { intros [b|] p l.
    - rewrite forallb_forall. split; [intros H x b' Hx [= <-]; auto|intros H x Hx; apply H; auto].
    - split; auto. intros _ x b _ [=]. }
  rewrite !andb_true_iff, !HL. unfold lim_ok. split.
  - intros [[[H1 H2] H3] H4]. split; intros x Hx; split; intros b Hb.
    + apply Z.leb_le. eapply H1; eauto.
    + specialize (H2 x b Hx Hb). lia.
    + apply Z.leb_le. eapply H3; eauto.
    + specialize (H4 x b Hx Hb). lia.
  - intros [H1 H2]. repeat split; intros x b Hx Hb.
    + apply Z.leb_le. apply (H1 x Hx); auto.
    + destruct (H1 x Hx) as [_ K]. specialize (K b Hb). lia.
    + apply Z.leb_le. apply (H2 x Hx); auto.
    + destruct (H2 x Hx) as [_ K]. specialize (K b Hb). lia.
Qed.

Lemma filter_target_all smults charges l :
  Forall (fun S => 1 <= S) smults ->
  (forall t, In t l -> 1 <= t /\ Z.even (sumZ (s2of smults) - (t - 1)) = true) ->
  (filter_keep None None None None None (Some l) charges smults = true <->
   forall t, In t l -> can_couple (s2of smults) (t - 1)).
Proof.
  intros HP HL. unfold filter_keep. cbn [andb]. fold (s2of smults).
  rewrite andb_true_iff, !forallb_forall. split.
  - intros [H1 H2] t Ht. apply polygon_rule; [apply s2of_nonneg; auto|].
    destruct (HL t Ht). specialize (H1 t Ht). specialize (H2 t Ht). repeat split; auto; lia.
  - intros H. split; intros t Ht; specialize (H t Ht);
      apply polygon_rule in H; try (apply s2of_nonneg; auto); lia.
Qed.

Lemma filter_target_any_keeps smults charges l :
  Forall (fun S => 1 <= S) smults ->
  (exists t, In t l /\ can_couple (s2of smults) (t - 1)) ->
  filter_keep None None None None (Some l) None charges smults = true.
Proof.
  intros HP (t & Ht & HC). unfold filter_keep. cbn [andb]. fold (s2of smults).
  apply polygon_rule in HC; [|apply s2of_nonneg; auto].
  rewrite andb_true_r, andb_true_iff, !existsb_exists. split; exists t; split; auto; lia.
Qed.

Lemma filter_target_any_single smults charges t :
  Forall (fun S => 1 <= S) smults -> 1 <= t -> Z.even (sumZ (s2of smults) - (t - 1)) = true ->
  (filter_keep None None None None (Some [t]) None charges smults = true <->
   can_couple (s2of smults) (t - 1)).
Proof.
  intros HP Ht HE. split.
  - unfold filter_keep. cbn [andb existsb orb]. fold (s2of smults).
    rewrite !orb_false_r, andb_true_r. intros H. apply andb_true_iff in H as [H1 H2].
    apply polygon_rule; [apply s2of_nonneg; auto|]. repeat split; auto; lia.
  - intros H. apply filter_target_any_keeps; auto. exists t; split; auto. left; auto.
Qed.

(** ** C48: is_orthogonal_by_smult *)
Lemma orthogonal_by_smult_exact sm1 sm2 :
  Forall (fun S => 1 <= S) sm1 -> Forall (fun S => 1 <= S) sm2 ->
  Z.even (sumZ (s2of sm1) - sumZ (s2of sm2)) = true ->
  (is_orthogonal_by_smult sm1 sm2 = true <->
   ~ exists S, can_couple (s2of sm1) S /\ can_couple (s2of sm2) S).
Proof.
  intros H1 H2 HE. unfold is_orthogonal_by_smult. fold (s2of sm1) (s2of sm2).
  pose proof (s2of_nonneg _ H1) as N1. pose proof (s2of_nonneg _ H2) as N2.
  pose proof (max_list_le_sum _ N1). pose proof (max_list_le_sum _ N2).
  pose proof (max_list_nonneg (s2of sm1)). pose proof (max_list_nonneg (s2of sm2)).
  set (a := s2of sm1) in *. set (b := s2of sm2) in *.
  split.
  - intros H' (S & A & B). apply polygon_rule in A as (A1 & A2 & A3); auto.
    apply polygon_rule in B as (B1 & B2 & B3); auto. lia.
  - intros HN. destruct (_ || _) eqn:E; auto. exfalso. apply HN.
    apply orb_false_iff in E as [E1 E2].
    exists (Z.min (sumZ a) (sumZ b)).
    apply even_mod0 in HE.
    split; apply polygon_rule; auto; rewrite even_mod0; repeat split; try lia;
      destruct (Z.min_spec (sumZ a) (sumZ b)) as [[_ ->]|[_ ->]]; elia.
Qed.

(** ** C09 *)
Lemma greedy_fill_spec caps : forall delta,
  Forall (fun c => 0 <= c) caps -> 0 <= delta <= sumZ caps -> caps <> [] ->
  exists d, greedy_fill delta caps = Some d /\
    Forall2 (fun c x => 0 <= x <= c) caps d /\ sumZ d = delta /\
    (Z.even delta = true -> Forall (fun c => Z.even c = true) caps -> Forall (fun x => Z.even x = true) d).
Proof.
  induction caps as [|c caps IH]; intros delta HF Hd Hne; [congruence|].
  inversion HF as [|? ? Hc HF']; subst. cbn [greedy_fill sumZ] in *.
  destruct (Z.geb_spec c delta).
  - exists (delta :: map (fun _ => 0) caps). split; auto. split; [|split].
    + constructor; [lia|]. clear -HF'. induction HF'; cbn; constructor; auto. lia.
    + cbn. assert (sumZ (map (fun _ => 0) caps) = 0) as -> by (clear; induction caps; cbn; lia). lia.
    + intros HE _. constructor; auto. clear. induction caps; cbn; constructor; auto.
  - destruct caps as [|c' caps']; [cbn in Hd; lia|].
    destruct (IH (delta - c) HF') as (d & -> & H1 & H2 & H3); [lia|congruence|].
    exists (c :: d). split; auto. split; [constructor; auto; lia|]. split; [cbn [sumZ]; lia|].
    intros HE HEc. inversion HEc; subst. constructor; auto. apply H3; auto.
    rewrite Z.even_sub, HE, H5. auto.
Qed.

Lemma greedy_fill_length caps : forall z d, greedy_fill z caps = Some d -> length d = length caps.
Proof.
  induction caps as [|c caps IH]; intros z d; cbn [greedy_fill]; [discriminate|].
  destruct (c >=? z).
  - intros [= <-]. cbn. rewrite map_length. auto.
  - destruct (greedy_fill (z - c) caps) as [l|] eqn:E; [|discriminate]. intros [= <-]. cbn. f_equal. eauto.
Qed.

Lemma sumZ_zipw_lin sgn spins d :
  length spins = length d ->
  sumZ (zipw (fun m x => m + sgn * x) spins d) = sumZ spins + sgn * sumZ d.
Proof.
  unfold zipw. revert d; induction spins as [|m l IH]; intros [|x d] HL; cbn [length] in HL; try lia.
  - cbn. lia.
  - cbn [combine map sumZ fst snd]. rewrite IH by lia. lia.
Qed.

Definition local_ok (S m : Z) : Prop := - (S - 1) <= m <= S - 1.

Lemma forallb_zipw_lt (q : Z -> Z -> bool) (Q : Z -> Z -> Prop) spins smults :
  (forall m S, q m S = true <-> Q S m) -> length spins = length smults ->
  (forallb (fun b => b) (zipw q spins smults) = true <-> Forall2 Q smults spins).
Proof.
  intros HQ. unfold zipw. revert smults; induction spins as [|m l IH]; intros [|S sm] HL; cbn in *; try lia.
  - split; auto.
  - rewrite andb_true_iff, HQ, IH by lia. split.
    + intros [? ?]; constructor; auto.
    + intros H; inversion H; auto.
Qed.

Theorem repair_spins_exact smults spins target :
  Forall2 local_ok smults spins ->
  ((exists out, repair_spins smults spins target = Ok out) <->
   (- sumZ (s2of smults) <= target <= sumZ (s2of smults))) /\
  (forall out, repair_spins smults spins target = Ok out ->
     Forall2 local_ok smults out /\ sumZ out = target /\
     (Forall2 (fun S m => Z.even (S - 1 - m) = true) smults spins ->
      Z.even (sumZ (s2of smults) - target) = true ->
      Forall2 (fun S m => Z.even (S - 1 - m) = true) smults out)).
Proof.
  intros HF.
  assert (HL : length smults = length spins) by (eapply Forall2_length; eauto).
  assert (HR : - sumZ (s2of smults) <= sumZ spins <= sumZ (s2of smults)).
  { clear -HF. unfold s2of. induction HF as [|S m sm sp H HF IH]; cbn [map sumZ]; [lia|].
    unfold local_ok in H. lia. }
  assert (HB : forall out, Forall2 local_ok smults out ->
     - sumZ (s2of smults) <= sumZ out <= sumZ (s2of smults)).
  { clear. intros out HF. unfold s2of. induction HF as [|S m sm sp H HF IH]; cbn [map sumZ]; [lia|].
    unfold local_ok in H. lia. }
  unfold repair_spins.
  set (core := if sumZ spins - target =? 0 then Ok spins else _).
  assert (Hcore : - sumZ (s2of smults) <= target <= sumZ (s2of smults) ->
     exists out, core = Ok out /\ Forall2 local_ok smults out /\ sumZ out = target /\
      (Forall2 (fun S m => Z.even (S - 1 - m) = true) smults spins ->
      Z.even (sumZ (s2of smults) - target) = true ->
      Forall2 (fun S m => Z.even (S - 1 - m) = true) smults out)).
  { intros HT. unfold core. destruct (Z.eqb_spec (sumZ spins - target) 0) as [E|E].
    { exists spins. repeat split; auto. lia. }
    set (sgn := if _ >? 0 then -1 else 1).
    assert (Hsgn : (sgn = -1 /\ sumZ spins > target) \/ (sgn = 1 /\ sumZ spins < target)).
    { unfold sgn. destruct (Z.gtb_spec (sumZ spins - target) 0); lia. }
    clearbody sgn.
    set (caps := zipw _ smults spins).
    assert (Hcaps : Forall (fun c => 0 <= c) caps /\ sumZ caps = sumZ (s2of smults) - sgn * sumZ spins
              /\ length caps = length smults /\
              (Forall2 (fun S m => Z.even (S - 1 - m) = true) smults spins ->
               Forall (fun c => Z.even c = true) caps)).
    { unfold caps, zipw, s2of. clear -HF Hsgn. assert (Hs : sgn = -1 \/ sgn = 1) by tauto. clear Hsgn.
      induction HF as [|S m sm sp H HF IH]; [cbn; repeat split; auto; lia|].
      destruct IH as (I1 & I2 & I3 & I4). cbn [combine map sumZ length fst snd]. unfold local_ok in H.
      split; [constructor; auto; destruct Hs; subst; lia|]. split; [lia|].
      split; [lia|]. intros HE; inversion HE; subst. constructor; auto.
      destruct Hs as [->| ->]; rewrite even_mod0 in *; elia. }
    destruct Hcaps as (C1 & C2 & C3 & C4).
    replace (forallb (fun c => c >=? 0) caps) with true.
    2:{ symmetry. apply forallb_forall. rewrite Forall_forall in C1. intros x Hx. specialize (C1 x Hx). lia. }
    cbn [py_assert].
    destruct (greedy_fill_spec caps (Z.abs (sumZ spins - target))) as (d & -> & D1 & D2 & D3); auto.
    { rewrite C2. destruct Hsgn as [[-> ?]|[-> ?]]; lia. }
    { intros Hnil. rewrite Hnil in C3. cbn in C3. destruct smults; [|cbn in C3; lia].
      destruct spins; [|cbn in HL; lia]. cbn in *. lia. }
    eexists; split; [reflexivity|].
    assert (HLd : length spins = length d).
    { apply Forall2_length in D1. lia. }
    split; [|split].
    - unfold caps, zipw in D1 |- *. clear -HF D1 Hsgn.
      assert (Hs : sgn = -1 \/ sgn = 1) by tauto. clear Hsgn. revert d D1.
      induction HF as [|S m sm sp H HF IH]; intros d D1; cbn [combine map fst snd] in D1; inversion D1; subst.
      + constructor.
      + cbn [combine map fst snd]. constructor; auto. unfold local_ok in *. destruct Hs as [->| ->]; lia.
    - rewrite sumZ_zipw_lin, D2 by auto. destruct Hsgn as [[-> ?]|[-> ?]]; lia.
    - intros HE HEt.
      assert (HEs : Z.even (sumZ (s2of smults) - sumZ spins) = true).
      { clear -HE. unfold s2of. induction HE as [|S m sm sp H HE IH]; cbn [map sumZ]; [reflexivity|].
        replace (S - 1 + sumZ (map (fun s => s - 1) sm) - (m + sumZ sp))
          with ((S - 1 - m) + (sumZ (map (fun s => s - 1) sm) - sumZ sp)) by lia.
        apply even_sum; auto. }
      assert (HD : Forall (fun x => Z.even x = true) d).
      { apply D3; auto. rewrite even_mod0 in *. elia. }
      clear -HE HD HLd Hsgn. unfold zipw. assert (Hs : sgn = -1 \/ sgn = 1) by tauto. clear Hsgn.
      revert d HD HLd. induction HE as [|S m sm sp H HE IH]; intros [|x d] HD HLd; cbn [length] in HLd; try lia; cbn [combine map fst snd]; constructor.
      + inversion HD; subst. rewrite even_mod0 in *. destruct Hs as [->| ->]; elia.
      + inversion HD; subst. apply IH; auto. }
  assert (Hlen : forall out, core = Ok out -> length out = length smults).
  { unfold core. intros out. destruct (_ =? 0).
    - intros [= <-]. auto.
    - unfold py_assert. destruct (forallb _ _); [|discriminate].
      destruct (greedy_fill _ _) as [d|] eqn:Eg; [|discriminate]. intros [= <-].
      unfold zipw. rewrite map_length, combine_length.
      assert (length d = length smults); [|lia].
      apply greedy_fill_length in Eg. rewrite Eg. apply zipw_length; auto. }
  assert (Hout : forall out, bind core (fun spins1 => py_assert (sumZ spins1 =? target)
    (py_assert (forallb (fun b => b) (zipw (fun m S => m <? S) spins1 smults))
      (py_assert (forallb (fun b => b) (zipw (fun m S => - m <? S) spins1 smults)) (Ok spins1)))) = Ok out
     <-> core = Ok out /\ sumZ out = target /\ Forall2 local_ok smults out).
  { intros out. destruct core as [o|e] eqn:Ec; cbn [bind].
    2:{ split; [discriminate|]. intros [? _]; discriminate. }
    specialize (Hlen o eq_refl). unfold py_assert.
    destruct (Z.eqb_spec (sumZ o) target) as [E1|E1].
    2:{ split; [discriminate|]. intros ([= ->] & ? & _); contradiction. }
    destruct (forallb _ (zipw (fun m S => m <? S) o smults)) eqn:E2.
    - destruct (forallb _ (zipw (fun m S => - m <? S) o smults)) eqn:E3.
      + split; [intros [= <-]|intros ([= ->] & _); auto].
        split; auto. split; auto.
        rewrite (forallb_zipw_lt _ (fun S m => m < S)) in E2 by (auto; intros; apply Z.ltb_lt).
        rewrite (forallb_zipw_lt _ (fun S m => - m < S)) in E3 by (auto; intros; apply Z.ltb_lt).
        clear -E2 E3. revert E3. induction E2; intros E3; inversion E3; subst; constructor; auto.
        unfold local_ok. lia.
      + split; [discriminate|]. intros ([= ->] & _ & HK). exfalso.
        apply not_true_iff_false in E3. apply E3.
        rewrite (forallb_zipw_lt _ (fun S m => - m < S)) by (auto; intros; apply Z.ltb_lt).
        eapply Forall2_impl; [|exact HK]. unfold local_ok. lia.
    - split; [discriminate|]. intros ([= ->] & _ & HK). exfalso.
      apply not_true_iff_false in E2. apply E2.
      rewrite (forallb_zipw_lt _ (fun S m => m < S)) by (auto; intros; apply Z.ltb_lt).
      eapply Forall2_impl; [|exact HK]. unfold local_ok. lia. }
  split.
  - split.
    + intros [out Ho]. apply Hout in Ho as (_ & <- & HK). auto.
    + intros HT. destruct (Hcore HT) as (out & Ec & K1 & K2 & _). exists out. apply Hout. auto.
  - intros out Ho. apply Hout in Ho as (Ec & K1 & K2). split; auto. split; auto.
    intros HE HEt. assert (HT : - sumZ (s2of smults) <= target <= sumZ (s2of smults)) by (rewrite <- K1; auto).
    destruct (Hcore HT) as (out' & Ec' & _ & _ & K3). rewrite Ec in Ec'. injection Ec' as <-. auto.
Qed.

(** fragment-by-fragment result of combining disjoint excitations *)
Lemma merge_frags_nth ig e1 e2 r k f1 f2 fr :
  length e1 = length r -> length e2 = length r ->
  nth_error e1 k = Some f1 -> nth_error e2 k = Some f2 -> nth_error r k = Some fr ->
  nth_error (merge_frags ig e1 e2 r) k =
  Some (let g := if excited_frag ig f2 fr then f2 else f1 in
        mkfrag (f_norb fr) (f_nel0 fr) (f_charge g) (f_spin g) (f_smult g)).
Proof.
  unfold merge_frags. revert e1 e2 r. induction k; intros [|a e1] [|b e2] [|c r] L1 L2 E1 E2 E3;
    cbn in *; try discriminate.
  - injection E1 as ->. injection E2 as ->. injection E3 as ->. auto.
  - apply IHk; auto.
Qed.

Lemma merge_frags_length ig e1 e2 r :
  length e1 = length r -> length e2 = length r -> length (merge_frags ig e1 e2 r) = length r.
Proof.
  unfold merge_frags. revert e1 e2; induction r; intros [|x e1] [|y e2] L1 L2; cbn in *; auto; lia.
Qed.

Lemma set_spins_nth fs sp k f :
  length sp = length fs -> nth_error fs k = Some f ->
  nth_error (set_spins fs sp) k =
  Some (mkfrag (f_norb f) (f_nel0 f) (f_charge f) (nth k sp 0) (f_smult f)).
Proof.
  unfold set_spins, zipw. revert fs sp; induction k; intros [|g fs] [|m sp] L E; cbn in *; try discriminate.
  - injection E as ->. auto.
  - apply IHk; auto.
Qed.

Lemma eqb_nats_eq a b : eqb_nats a b = true <-> a = b.
Proof.
  revert b; induction a; intros [|y b]; cbn; split; intros H; try discriminate; auto.
  - apply andb_true_iff in H as [H1 H2]. apply Nat.eqb_eq in H1. apply IHa in H2. congruence.
  - injection H as -> ->. rewrite Nat.eqb_refl. cbn. apply IHa; auto.
Qed.

Lemma nodup_ent_iff l : nodup_ent l = true <-> NoDup l.
Proof.
  induction l; cbn; [split; auto; constructor|].
  rewrite andb_true_iff, negb_true_iff, IHl. split.
  - intros [H1 H2]. constructor; auto. intros Hin. apply not_true_iff_false in H1. apply H1.
    apply existsb_exists. exists a; split; auto. apply eqb_nats_eq; auto.
  - intros H; inversion H; subst. split; auto. apply not_true_iff_false. intros He.
    apply existsb_exists in He as (x & Hx & He). apply eqb_nats_eq in He. congruence.
Qed.

Definition shape (r f : frag) : Prop := f_norb f = f_norb r /\ f_nel0 f = f_nel0 r.

(** which excitation owns a fragment *)
Definition owner (ig : bool) (f1 f2 r : frag) : frag := if excited_frag ig f2 r then f2 else f1.

Lemma excited_same_ref f r : shape r f -> spin_ok f -> spin_ok r -> excited_frag true f r = false ->
  parity_ok f -> parity_ok r ->
  f_charge f = f_charge r /\ f_smult f = f_smult r.
Proof.
  intros [S1 S2] _ _ H (na & nb & O1) (ma & mb & O2).
  unfold excited_frag in H. apply negb_false_iff, andb_true_iff in H as [H1 H2].
  destruct (neleca_occ _ _ _ O1) as [E1 E2]. destruct (neleca_occ _ _ _ O2) as [E3 E4].
  rewrite E1, E2, E3, E4 in *. destruct O1, O2. lia.
Qed.

Lemma merge_local_ok ig e1 e2 r :
  length e1 = length r -> length e2 = length r ->
  Forall spin_ok e1 -> Forall spin_ok e2 ->
  Forall2 local_ok (map f_smult (merge_frags ig e1 e2 r)) (map f_spin (merge_frags ig e1 e2 r)) /\
  Forall2 (fun S m => Z.even (S - 1 - m) = true)
    (map f_smult (merge_frags ig e1 e2 r)) (map f_spin (merge_frags ig e1 e2 r)).
Proof.
  unfold merge_frags. revert e1 e2; induction r as [|c r IH]; intros [|a e1] [|b e2] L1 L2 H1 H2; cbn in *; try lia; auto.
  inversion H1 as [|? ? [A1 A2] H1']; inversion H2 as [|? ? [B1 B2] H2']; subst.
  destruct (IH e1 e2) as [I1 I2]; auto.
  split; constructor; auto; destruct (excited_frag ig b c); auto.
Qed.

(** C09, the whole flexible_m call *)
Theorem combine_flexible_exact e1 e2 ref c1 c2 :
  length (sp_frags e1) = length (sp_frags ref) -> length (sp_frags e2) = length (sp_frags ref) ->
  Forall spin_ok (sp_frags e1) -> Forall spin_ok (sp_frags e2) ->
  NoDup (sp_entmap e1 ++ sp_entmap e2) ->
  let sm := map f_smult (merge_frags true (sp_frags e1) (sp_frags e2) (sp_frags ref)) in
  let M := total_spin (sp_frags ref) in
  ((exists p, combine_orthogonal_excitations e1 e2 ref c1 c2 true = Ok p) <->
   - sumZ (s2of sm) <= M <= sumZ (s2of sm)) /\
  (forall p, combine_orthogonal_excitations e1 e2 ref c1 c2 true = Ok p ->
    length (sp_frags p) = length (sp_frags ref) /\
    total_spin (sp_frags p) = M /\
    (Z.even (sumZ (s2of sm) - M) = true -> Forall spin_ok (sp_frags p)) /\
    (forall k f1 f2 r f, nth_error (sp_frags e1) k = Some f1 -> nth_error (sp_frags e2) k = Some f2 ->
       nth_error (sp_frags ref) k = Some r -> nth_error (sp_frags p) k = Some f ->
       let g := if excited_frag true f2 r then f2 else f1 in
       f_charge f = f_charge g /\ f_smult f = f_smult g /\ local_ok (f_smult f) (f_spin f) /\
       f_norb f = f_norb r /\ f_nel0 f = f_nel0 r)).
Proof.
  intros L1 L2 S1 S2 HN sm M.
  destruct (merge_local_ok true _ _ _ L1 L2 S1 S2) as [HLo HEv].
  set (fs := merge_frags true (sp_frags e1) (sp_frags e2) (sp_frags ref)) in *.
  assert (Lfs : length fs = length (sp_frags ref)) by (apply merge_frags_length; auto).
  destruct (repair_spins_exact sm (map f_spin fs) M HLo) as [R1 R2].
  unfold combine_orthogonal_excitations. fold fs. fold sm. unfold total_spin in M. fold M.
  rewrite (proj2 (nodup_ent_iff _) HN). cbn [py_assert].
  split.
  - rewrite <- R1. split.
    + intros [p Hp]. destruct (repair_spins sm (map f_spin fs) M) as [o|]; [eauto|discriminate].
    + intros [o ->]. cbn. eauto.
  - intros p Hp. destruct (repair_spins sm (map f_spin fs) M) as [o|] eqn:Er; [|discriminate].
    cbn [bind] in Hp. injection Hp as <-. cbn [sp_frags].
    destruct (R2 o eq_refl) as (K1 & K2 & K3).
    assert (Lo : length o = length fs).
    { apply Forall2_length in K1. unfold sm in K1. rewrite map_length in K1. auto. }
    assert (Hsp : map f_spin (set_spins fs o) = o).
    { clear -Lo. revert o Lo. induction fs as [|f fs IHf]; intros [|m z] Hz; cbn in Hz; try lia; auto.
      rewrite set_spins_cons. cbn. rewrite IHf; auto. }
    assert (Hsm : map f_smult (set_spins fs o) = sm).
    { unfold sm. clear -Lo. revert o Lo. induction fs as [|f fs IHf]; intros [|m z] Hz; cbn in Hz; try lia; auto.
      rewrite set_spins_cons. cbn. rewrite IHf; auto. }
    split; [|split; [|split]].
    + unfold set_spins. rewrite zipw_length; auto.
    + unfold total_spin. rewrite Hsp. auto.
    + intros HE. specialize (K3 HEv HE). apply Forall_forall. intros f Hf.
      apply In_nth_error in Hf as [k Hk].
      assert (nth_error sm k = Some (f_smult f)) as A1 by (rewrite <- Hsm, nth_error_map, Hk; auto).
      assert (nth_error o k = Some (f_spin f)) as A2 by (rewrite <- Hsp, nth_error_map, Hk; auto).
      apply Forall2_nth_error in K1 as [_ K1]. apply Forall2_nth_error in K3 as [_ K3].
      split; [eapply (K1 k); eauto|eapply (K3 k); eauto].
    + intros k f1 f2 r f E1 E2 E3 Ef.
      pose proof (merge_frags_nth true _ _ _ k f1 f2 r L1 L2 E1 E2 E3) as EM. fold fs in EM.
      assert (nth_error sm k = Some (f_smult f)) as A1 by (rewrite <- Hsm, nth_error_map, Ef; auto).
      assert (nth_error o k = Some (f_spin f)) as A2 by (rewrite <- Hsp, nth_error_map, Ef; auto).
      apply Forall2_nth_error in K1 as [_ K1]. pose proof (K1 k _ _ A1 A2) as HK.
      rewrite (set_spins_nth fs o k _ Lo EM) in Ef. injection Ef as <-.
      cbn [f_charge f_smult f_spin f_norb f_nel0] in *. auto.
Qed.

(** ** C10 *)
Lemma range_down2_in fuel : forall start stop x,
  (Z.to_nat (start - stop) <= fuel)%nat ->
  (In x (range_down2 fuel start stop) <-> stop < x <= start /\ Z.even (start - x) = true).
Proof.
  induction fuel as [|fuel IH]; intros start stop x HF; cbn [range_down2].
  - split; [intros []|]. intros [H _]. lia.
  - destruct (Z.gtb_spec start stop).
    + cbn [In]. rewrite IH by lia. rewrite !even_mod0. split.
      * intros [<-|[H1 H2]]; split; try lia; elia.
      * intros [H1 H2]. destruct (Z.eq_dec start x); auto. right. split; [|elia].
        split; [lia|]. assert (x <> start - 1) by (intros ->; elia). lia.
    + split; [intros []|]. intros [H' _]. lia.
Qed.

Lemma range_up2_in fuel : forall start stop x,
  (Z.to_nat (stop - start) <= fuel)%nat ->
  (In x (range_up2 fuel start stop) <-> start <= x < stop /\ Z.even (x - start) = true).
Proof.
  induction fuel as [|fuel IH]; intros start stop x HF; cbn [range_up2].
  - split; [intros []|]. intros [H _]. lia.
  - destruct (Z.ltb_spec start stop).
    + cbn [In]. rewrite IH by lia. rewrite !even_mod0. split.
      * intros [<-|[H1 H2]]; split; try lia; elia.
      * intros [H1 H2]. destruct (Z.eq_dec start x); auto. right. split; [|elia].
        split; [|lia]. assert (x <> start + 1) by (intros ->; elia). lia.
    + split; [intros []|]. intros [H' _]. lia.
Qed.

Section Szrot.
Variable V : Type.
Variable sdown sup : Z -> Z -> V -> V.

(** k lowering steps starting from (na, nb): each step applied with the current electron numbers *)
Fixpoint lower (k : nat) (na nb : Z) (c : V) : V :=
  match k with O => c | S k' => lower k' (na - 1) (nb + 1) (sdown na nb c) end.
Fixpoint raise_ (k : nat) (na nb : Z) (c : V) : V :=
  match k with O => c | S k' => raise_ k' (na + 1) (nb - 1) (sup na nb c) end.

Lemma down_loop_lookup fuel : forall start stop na nb c x,
  (Z.to_nat (start - stop) <= fuel)%nat ->
  stop < x <= start -> Z.even (start - x) = true ->
  lookup x (down_loop V sdown (range_down2 fuel start stop) na nb c) =
  Some (lower (S (Z.to_nat ((start - x) / 2))) na nb c).
Proof.
  induction fuel as [|fuel IH]; intros start stop na nb c x HF Hx HE; [lia|].
  cbn [range_down2]. destruct (Z.gtb_spec start stop); [|lia].
  cbn [down_loop lookup]. destruct (Z.eqb_spec x start) as [->|Hne].
  - replace (start - start) with 0 by lia. reflexivity.
  - rewrite even_mod0 in HE. assert (x <> start - 1) by (intros ->; elia).
    rewrite IH; [|lia|lia|rewrite even_mod0; elia].
    replace (Z.to_nat ((start - x) / 2)) with (S (Z.to_nat ((start - 2 - x) / 2))) by elia.
    reflexivity.
Qed.

Lemma up_loop_lookup fuel : forall start stop na nb c x,
  (Z.to_nat (stop - start) <= fuel)%nat ->
  start <= x < stop -> Z.even (x - start) = true ->
  lookup x (up_loop V sup (range_up2 fuel start stop) na nb c) =
  Some (raise_ (S (Z.to_nat ((x - start) / 2))) na nb c).
Proof.
  induction fuel as [|fuel IH]; intros start stop na nb c x HF Hx HE; [lia|].
  cbn [range_up2]. destruct (Z.ltb_spec start stop); [|lia].
  cbn [up_loop lookup]. destruct (Z.eqb_spec x start) as [->|Hne].
  - replace (start - start) with 0 by lia. reflexivity.
  - rewrite even_mod0 in HE. assert (x <> start + 1) by (intros ->; elia).
    rewrite IH; [|lia|lia|rewrite even_mod0; elia].
    replace (Z.to_nat ((x - start) / 2)) with (S (Z.to_nat ((x - (start + 2)) / 2))) by elia.
    reflexivity.
Qed.

Lemma lookup_app {W} k (d d' : list (Z * W)) :
  lookup k (d ++ d') = match lookup k d with Some v => Some v | None => lookup k d' end.
Proof. induction d as [|[k' v] d IH]; cbn; auto. destruct (k =? k'); auto. Qed.

Lemma lookup_none {W} k (d : list (Z * W)) : ~ In k (map fst d) -> lookup k d = None.
Proof.
  induction d as [|[k' v] d IH]; cbn; auto. intros H. destruct (Z.eqb_spec k k'); [subst; tauto|]. auto.
Qed.

Lemma down_loop_keys szs na nb c : map fst (down_loop V sdown szs na nb c) = szs.
Proof. revert na nb c; induction szs; cbn; intros; f_equal; auto. Qed.
Lemma up_loop_keys szs na nb c : map fst (up_loop V sup szs na nb c) = szs.
Proof. revert na nb c; induction szs; cbn; intros; f_equal; auto. Qed.

Theorem szrot_exact f c :
  spin_ok f ->
  (forall x, In x (map fst (get_ci_szrot V sdown sup f c)) <->
     - (f_smult f - 1) <= x <= f_smult f - 1 /\ Z.even (f_smult f - 1 - x) = true) /\
  (forall k : nat, - (f_smult f - 1) <= f_spin f - 2 * Z.of_nat k ->
     lookup (f_spin f - 2 * Z.of_nat k) (get_ci_szrot V sdown sup f c)
     = Some (lower k (neleca f) (nelecb f) c)) /\
  (forall k : nat, f_spin f + 2 * Z.of_nat k <= f_smult f - 1 ->
     lookup (f_spin f + 2 * Z.of_nat k) (get_ci_szrot V sdown sup f c)
     = Some (raise_ k (neleca f) (nelecb f) c)).
Proof.
  intros [H1 H2]. rewrite even_mod0 in H2. unfold get_ci_szrot, py_range_down2, py_range_up2.
  split; [|split].
  - intros x. cbn [map fst In]. rewrite map_app, in_app_iff, down_loop_keys, up_loop_keys.
    rewrite range_down2_in, range_up2_in by lia. rewrite !even_mod0. split.
    + intros [<-|[[A B]|[A B]]].
      * split; [lia|auto].
      * assert (x <> - f_smult f) by (intros ->; elia). split; [lia|elia].
      * assert (x <> f_smult f) by (intros ->; elia). split; [lia|elia].
    + intros [A B]. destruct (Z.eq_dec (f_spin f) x); auto. right.
      assert (x <> f_spin f - 1) by (intros ->; elia).
      assert (x <> f_spin f + 1) by (intros ->; elia).
      destruct (Z.lt_ge_cases x (f_spin f)); [left|right]; split; try lia; elia.
  - intros k Hk. cbn [lookup]. destruct k as [|k].
    + replace (f_spin f - 2 * Z.of_nat 0) with (f_spin f) by lia. rewrite Z.eqb_refl. auto.
    + destruct (Z.eqb_spec (f_spin f - 2 * Z.of_nat (S k)) (f_spin f)); [lia|].
      rewrite lookup_app, down_loop_lookup; try lia.
      * f_equal. f_equal. f_equal.
        replace (f_spin f - 2 - (f_spin f - 2 * Z.of_nat (S k))) with (Z.of_nat k * 2) by lia.
        rewrite Z.div_mul by lia. apply Nat2Z.id.
      * rewrite even_mod0. elia.
  - intros k Hk. cbn [lookup]. destruct k as [|k].
    + replace (f_spin f + 2 * Z.of_nat 0) with (f_spin f) by lia. rewrite Z.eqb_refl. auto.
    + destruct (Z.eqb_spec (f_spin f + 2 * Z.of_nat (S k)) (f_spin f)); [lia|].
      rewrite lookup_app, lookup_none, up_loop_lookup; try lia.
      * f_equal. f_equal. f_equal.
        replace (f_spin f + 2 * Z.of_nat (S k) - (f_spin f + 2)) with (Z.of_nat k * 2) by lia.
        rewrite Z.div_mul by lia. apply Nat2Z.id.
      * rewrite even_mod0. elia.
      * rewrite down_loop_keys, range_down2_in by lia. lia.
Qed.

(** look-ups by get_spin_shuffle_civecs never miss *)
Lemma shuffle_lookup f c m :
  spin_ok f -> - (f_smult f - 1) <= m <= f_smult f - 1 -> Z.even (f_smult f - 1 - m) = true ->
  lookup m (get_ci_szrot V sdown sup f c) <> None.
Proof.
  intros Hf H1 H2. destruct (szrot_exact f c Hf) as (K & _ & _).
  assert (In m (map fst (get_ci_szrot V sdown sup f c))) as Hin by (apply K; auto).
  revert Hin. generalize (get_ci_szrot V sdown sup f c). induction l as [|[k v] l IH]; cbn; [tauto|].
  destruct (Z.eqb_spec m k); [discriminate|]. intros [?|?]; [congruence|auto].
Qed.
End Szrot.

Lemma enum_range_down fuel : forall k start stop, 
  map (fun p => snd p - (start - 2 * (fst p - k))) (enum_from k (range_down2 fuel start stop))
  = map (fun _ => 0) (range_down2 fuel start stop).
Proof.
  unfold enum_from. induction fuel as [|fuel IH]; intros k start stop; cbn [range_down2]; auto.
  destruct (start >? stop); auto. cbn [length seq map combine fst snd].
  f_equal; [lia|]. specialize (IH (k + 1) (start - 2) stop).
  rewrite <- IH. rewrite <- seq_shift, map_map.
  replace (map (fun x => k + Z.of_nat (S x)) (seq 0 (length (range_down2 fuel (start - 2) stop))))
    with (map (fun j => k + 1 + Z.of_nat j) (seq 0 (length (range_down2 fuel (start - 2) stop))))
    by (apply map_ext; intros; lia).
  apply map_ext. intros [a b]; cbn [fst snd]. lia.
Qed.

Lemma enum_range_up fuel : forall k start stop, 
  map (fun p => snd p - (start + 2 * (fst p - k))) (enum_from k (range_up2 fuel start stop))
  = map (fun _ => 0) (range_up2 fuel start stop).
Proof.
  unfold enum_from. induction fuel as [|fuel IH]; intros k start stop; cbn [range_up2]; auto.
  destruct (start <? stop); auto. cbn [length seq map combine fst snd].
  f_equal; [lia|]. specialize (IH (k + 1) (start + 2) stop).
  rewrite <- IH. rewrite <- seq_shift, map_map.
  replace (map (fun x => k + Z.of_nat (S x)) (seq 0 (length (range_up2 fuel (start + 2) stop))))
    with (map (fun j => k + 1 + Z.of_nat j) (seq 0 (length (range_up2 fuel (start + 2) stop))))
    by (apply map_ext; intros; lia).
  apply map_ext. intros [a b]; cbn [fst snd]. lia.
Qed.

Lemma map_zero_in {A B} (g : A -> Z) (l : list A) (l' : list B) x :
  map g l = map (fun _ => 0) l' -> In x l -> g x = 0.
Proof.
  intros H Hx. apply (in_map g) in Hx. rewrite H in Hx. apply in_map_iff in Hx as (? & <- & _). auto.
Qed.

Lemma enum_snd {A} k (l : list A) : map snd (enum_from k l) = l.
Proof.
  unfold enum_from. generalize 0%nat. revert k. induction l; intros k n; cbn; auto. f_equal. auto.
Qed.

Theorem fcisolvers_szrot_exact f :
  spin_ok f -> parity_ok f ->
  (forall x, In x (map fst (get_fcisolvers_szrot f)) <->
     - (f_smult f - 1) <= x <= f_smult f - 1 /\ Z.even (f_smult f - 1 - x) = true) /\
  (forall x r, In (x, r) (get_fcisolvers_szrot f) ->
     exists na nb, r = Ok (na, nb, x) /\ na - nb = x /\ na + nb = nelec f).
Proof.
  intros [H1 H2] (na & nb & O). rewrite even_mod0 in H2.
  destruct (neleca_occ _ _ _ O) as [E1 E2]. destruct O as [O1 O2].
  unfold get_fcisolvers_szrot, py_range_down2, py_range_up2.
  split.
  - intros x. cbn [map fst In]. rewrite map_app, in_app_iff, !map_map. cbn [fst].
    rewrite !enum_snd, range_down2_in, range_up2_in by lia. rewrite !even_mod0. split.
    + intros [<-|[[A B]|[A B]]].
      * split; [lia|auto].
      * assert (x <> - f_smult f) by (intros ->; elia). split; [lia|elia].
      * assert (x <> f_smult f) by (intros ->; elia). split; [lia|elia].
    + intros [A B]. destruct (Z.eq_dec (f_spin f) x); auto. right.
      assert (x <> f_spin f - 1) by (intros ->; elia).
      assert (x <> f_spin f + 1) by (intros ->; elia).
      destruct (Z.lt_ge_cases x (f_spin f)); [left|right]; split; try lia; elia.
  - assert (HS : forall q, get_fcisolver f (2 * q) = Ok (neleca f + q, nelecb f - q, f_spin f + 2 * q)).
    { intros q. unfold get_fcisolver. replace (2 * q) with (q * 2) by lia.
      rewrite Z.mod_mul, Z.div_mul by lia. reflexivity. }
    intros x r [[= <- <-]|H].
    + change 0 with (2 * 0). rewrite HS. exists (neleca f + 0), (nelecb f - 0).
      rewrite E1, E2. unfold nelec. split; [f_equal; f_equal; lia|lia].
    + apply in_app_or in H as [H|H]; apply in_map_iff in H as ([k y] & HE & H);
      apply pair_equal_spec in HE as [<- <-]; cbn [fst snd].
      * pose proof (map_zero_in _ _ _ _ (enum_range_down _ 0 _ _) H) as HZ. cbn [fst snd] in HZ.
        replace (-2 * (k + 1)) with (2 * (- (k + 1))) by lia. rewrite HS.
        eexists _, _. rewrite E1, E2. unfold nelec. split; [f_equal; f_equal; lia|lia].
      * pose proof (map_zero_in _ _ _ _ (enum_range_up _ 0 _ _) H) as HZ. cbn [fst snd] in HZ.
        rewrite HS.
        eexists _, _. rewrite E1, E2. unfold nelec. split; [f_equal; f_equal; lia|lia].
Qed.
