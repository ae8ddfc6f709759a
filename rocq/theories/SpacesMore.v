(** Further consequences: rebuilding a hop from its description, and combination of excitations on
    disjoint fragments in terms of the specification only. *)
From Coq Require Import List ZArith Lia Bool Sorting.Sorted.
From Verif Require Import Base BaseFacts SpacesModel SpacesSpec SpacesTables SpacesCoupling
  SpacesHop SpacesEnum SpacesClosure SpacesMisc.
Import ListNotations.
Local Open Scope Z_scope.

Lemma describe_rebuild csf s t d :
  csf_sound csf ->
  same_orbs s t -> Forall valid_frag s -> Forall parity_ok t ->
  describe_single_excitation s t = Ok (Some d) ->
  forall ent,
  get_single csf (mkspace t ent) (d_src d) (d_dest d) (if d_alpha d then 0 else 1)
     (if d_src_up d then 1 else -1) (if d_dest_up d then 1 else -1) = Ok (mkspace s []).
Proof.
  intros HC HO HV HP HD ent.
  assert (HI : is_single_excitation_of s t = true).
  { unfold describe_single_excitation in HD. destruct (is_single_excitation_of s t); auto. discriminate. }
  assert (Ps : Forall parity_ok s).
  { eapply Forall_impl; [|exact HV]. intros f (na & nb & O & _). exists na, nb; auto. }
  destruct (describe_single_correct s t HO Ps HP HI) as (d' & E & HH).
  rewrite HD in E. injection E as <-.
  set (m := if d_alpha d then 0 else 1).
  replace (if d_alpha d then 1 else -1) with (1 - 2 * m) in HH by (unfold m; destruct (d_alpha d); lia).
  pose proof (hop_det _ _ _ _ _ _ _ HH) as ES.
  destruct HH as (_ & _ & _ & (fi & fi' & _ & Ei & _) & (fa & fa' & _ & Ea & _)).
  rewrite (get_single_ok csf (mkspace t ent) (d_src d) (d_dest d) m _ _ fi' fa');
    cbn [sp_frags]; rewrite <- ?ES; auto.
  - rewrite Forall_forall in HV. apply HV. eapply nth_error_In; eauto.
  - rewrite Forall_forall in HV. apply HV. eapply nth_error_In; eauto.
Qed.

Lemma excited_iff f r : f_nel0 f = f_nel0 r -> parity_ok f -> parity_ok r ->
  (excited_frag true f r = true <-> touched f r).
Proof.
  intros S2 (na & nb & O1) (ma & mb & O2). unfold excited_frag, touched.
  destruct (neleca_occ _ _ _ O1) as [E1 E2]. destruct (neleca_occ _ _ _ O2) as [E3 E4].
  rewrite E1, E2, E3, E4, negb_true_iff, andb_false_iff, !Z.eqb_neq. destruct O1, O2. lia.
Qed.

Lemma zipw_in_range {A} (l : list A) k x : nth_error l k = Some x -> (k < length l)%nat.
Proof. intros H. apply nth_error_Some. congruence. Qed.

Lemma Forall_nth_error {A} (P : A -> Prop) l k x : Forall P l -> nth_error l k = Some x -> P x.
Proof. intros H E. rewrite Forall_forall in H. apply H. eapply nth_error_In; eauto. Qed.

Lemma nth_error_lt_some {A} (l : list A) k : (k < length l)%nat -> exists x, nth_error l k = Some x.
Proof. intros H. apply nth_error_Some in H. destruct (nth_error l k); eauto; congruence. Qed.

Lemma sumZ_pointwise (a b c d : list Z) :
  length a = length b -> length a = length c -> length a = length d ->
  (forall k w x y z, nth_error a k = Some w -> nth_error b k = Some x -> nth_error c k = Some y ->
     nth_error d k = Some z -> w = x + y - z) ->
  sumZ a = sumZ b + sumZ c - sumZ d.
Proof.
  revert b c d; induction a as [|w a IH]; intros [|x b] [|y c] [|z d] L1 L2 L3 H; cbn in *; try lia.
  rewrite (IH b c d); try lia.
  - specialize (H 0%nat _ _ _ _ eq_refl eq_refl eq_refl eq_refl). lia.
  - intros k. apply (H (S k)).
Qed.

Lemma microstate_smults sm M : (exists t, Forall2 local_ok sm t /\ sumZ t = M) ->
  - sumZ (s2of sm) <= M <= sumZ (s2of sm).
Proof.
  intros (t & H & <-). unfold s2of. induction H as [|a b l l' H0 H IH]; cbn; [lia|].
  destruct H0; lia.
Qed.

Theorem combine_flexible_spec e1 e2 ref c1 c2 :
  Forall2 shape (sp_frags ref) (sp_frags e1) -> Forall2 shape (sp_frags ref) (sp_frags e2) ->
  Forall spin_ok (sp_frags e1) -> Forall spin_ok (sp_frags e2) ->
  Forall parity_ok (sp_frags e1) -> Forall parity_ok (sp_frags e2) -> Forall parity_ok (sp_frags ref) ->
  Forall spin_ok (sp_frags ref) ->
  disjoint_exc (sp_frags e1) (sp_frags e2) (sp_frags ref) ->
  NoDup (sp_entmap e1 ++ sp_entmap e2) ->
  let sm := zip3 (fun f1 f2 r => f_smult f1 + f_smult f2 - f_smult r)
              (sp_frags e1) (sp_frags e2) (sp_frags ref) in
  ((exists p, combine_orthogonal_excitations e1 e2 ref c1 c2 true = Ok p) <->
   (exists t, Forall2 local_ok sm t /\ sumZ t = total_spin (sp_frags ref))) /\
  (forall p, combine_orthogonal_excitations e1 e2 ref c1 c2 true = Ok p ->
    length (sp_frags p) = length (sp_frags ref) /\
    total_spin (sp_frags p) = total_spin (sp_frags ref) /\
    total_elec (sp_frags p)
      = total_elec (sp_frags e1) + total_elec (sp_frags e2) - total_elec (sp_frags ref) /\
    (Z.even (total_elec (sp_frags p) - total_elec (sp_frags ref)) = true ->
       Forall spin_ok (sp_frags p)) /\
    (forall k f1 f2 r f, nth_error (sp_frags e1) k = Some f1 -> nth_error (sp_frags e2) k = Some f2 ->
       nth_error (sp_frags ref) k = Some r -> nth_error (sp_frags p) k = Some f ->
       f_charge f = f_charge f1 + f_charge f2 - f_charge r /\
       f_smult f = f_smult f1 + f_smult f2 - f_smult r /\
       local_ok (f_smult f) (f_spin f) /\
       f_norb f = f_norb r /\ f_nel0 f = f_nel0 r)).
Proof.
  intros H1 H2 S1 S2 P1 P2 P3 S3 HD HN sm.
  pose proof (Forall2_length _ _ _ H1) as L1. pose proof (Forall2_length _ _ _ H2) as L2.
  symmetry in L1, L2.
  destruct (combine_flexible_exact e1 e2 ref c1 c2 L1 L2 S1 S2 HN) as [A B].
  (* pointwise ownership *)
  assert (Own : forall k f1 f2 r, nth_error (sp_frags e1) k = Some f1 ->
     nth_error (sp_frags e2) k = Some f2 -> nth_error (sp_frags ref) k = Some r ->
     let g := if excited_frag true f2 r then f2 else f1 in
     f_charge g = f_charge f1 + f_charge f2 - f_charge r /\
     f_smult g = f_smult f1 + f_smult f2 - f_smult r).
  { intros k f1 f2 r E1 E2 E3 g.
    assert (Q2 : f_nel0 f2 = f_nel0 r).
    { apply Forall2_nth_error in H2 as [_ H2]. apply (H2 k r f2); auto. }
    pose proof (excited_iff f2 r Q2 (Forall_nth_error _ _ _ _ P2 E2) (Forall_nth_error _ _ _ _ P3 E3)) as X2.
    specialize (HD k f1 f2 r E1 E2 E3). unfold touched in *. unfold g.
    destruct (excited_frag true f2 r).
    - assert (f_charge f2 <> f_charge r \/ f_smult f2 <> f_smult r) by (apply X2; auto). lia.
    - destruct (Z.eq_dec (f_charge f2) (f_charge r)), (Z.eq_dec (f_smult f2) (f_smult r));
        try (assert (false = true) by (apply X2; lia); discriminate); lia. }
  assert (Esm : map f_smult (merge_frags true (sp_frags e1) (sp_frags e2) (sp_frags ref)) = sm).
  { unfold sm, merge_frags. clear -Own L1 L2.
    revert L1 L2 Own. generalize (sp_frags e1) (sp_frags e2) (sp_frags ref). 
    intros l1 l2 l3; revert l1 l2; induction l3 as [|r l3 IH]; intros [|f1 l1] [|f2 l2] L1 L2 Own;
      cbn [length] in *; try discriminate; auto.
    cbn [zip3 map f_smult]. f_equal.
    - apply (Own 0%nat f1 f2 r); auto.
    - apply IH; auto. intros k. apply (Own (S k)). }
  rewrite Esm in A, B.
  split.
  - rewrite A. split.
    + intros HM. apply A in HM. destruct HM as [p Hp]. destruct (B p Hp) as (LP & T & _ & K).
      exists (map f_spin (sp_frags p)). split; [|auto].
      apply Forall2_nth_error. split.
      * rewrite <- Esm, !map_length, merge_frags_length; auto.
      * intros k S m ES Em. rewrite nth_error_map in Em.
        destruct (nth_error (sp_frags p) k) as [f|] eqn:Ef; [|discriminate]. injection Em as <-.
        pose proof (zipw_in_range _ _ _ Ef) as LK. rewrite LP in LK.
        destruct (nth_error_lt_some (sp_frags ref) k LK) as [r Er].
        destruct (nth_error_lt_some (sp_frags e1) k ltac:(lia)) as [f1 E1].
        destruct (nth_error_lt_some (sp_frags e2) k ltac:(lia)) as [f2 E2].
        destruct (K k f1 f2 r f E1 E2 Er Ef) as (_ & K2 & K3 & _).
        rewrite <- Esm, nth_error_map, (merge_frags_nth true _ _ _ k f1 f2 r) in ES; auto.
        cbn [option_map f_smult] in ES. assert (ES' : f_smult (if excited_frag true f2 r then f2 else f1) = S) by congruence.
        rewrite <- ES', <- K2. auto.
    + apply microstate_smults.
  - intros p Hp. destruct (B p Hp) as (LP & T & K0 & K).
    assert (KK : forall k f1 f2 r f, nth_error (sp_frags e1) k = Some f1 -> nth_error (sp_frags e2) k = Some f2 ->
       nth_error (sp_frags ref) k = Some r -> nth_error (sp_frags p) k = Some f ->
       f_charge f = f_charge f1 + f_charge f2 - f_charge r /\
       f_smult f = f_smult f1 + f_smult f2 - f_smult r /\
       local_ok (f_smult f) (f_spin f) /\
       f_norb f = f_norb r /\ f_nel0 f = f_nel0 r).
    { intros k f1 f2 r f E1 E2 E3 Ef. destruct (K k f1 f2 r f E1 E2 E3 Ef) as (K1 & K2 & K3 & K4 & K5).
      destruct (Own k f1 f2 r E1 E2 E3) as (O1 & O2). cbn zeta in *.
      rewrite K1, O1. split; auto. split; [congruence|]. auto. }
    assert (TE : total_elec (sp_frags p)
      = total_elec (sp_frags e1) + total_elec (sp_frags e2) - total_elec (sp_frags ref)).
    { unfold total_elec. apply sumZ_pointwise; rewrite ?map_length; try lia.
      intros k w x y z Ew Ex Ey Ez. rewrite nth_error_map in *.
      destruct (nth_error (sp_frags p) k) as [f|] eqn:Ef; [|discriminate]. injection Ew as <-.
      destruct (nth_error (sp_frags e1) k) as [f1|] eqn:Ef1; [|discriminate]. injection Ex as <-.
      destruct (nth_error (sp_frags e2) k) as [f2|] eqn:Ef2; [|discriminate]. injection Ey as <-.
      destruct (nth_error (sp_frags ref) k) as [r|] eqn:Er; [|discriminate]. injection Ez as <-.
      destruct (KK k f1 f2 r f Ef1 Ef2 Er Ef) as (K1 & _ & _ & _ & K5).
      apply Forall2_nth_error in H1 as [_ H1]. destruct (H1 k r f1 Er Ef1) as [_ Q1].
      apply Forall2_nth_error in H2 as [_ H2]. destruct (H2 k r f2 Er Ef2) as [_ Q2]. lia. }
    split; [auto|]. split; [auto|]. split; [auto|]. split; [|exact KK].
    intros HE. apply K0.
    (* parities: sum (S-1) = elec p, M = elec ref *)
    assert (PM : Z.even (total_elec (sp_frags ref) - total_spin (sp_frags ref)) = true).
    { clear -P3. unfold total_elec, total_spin. induction P3 as [|f l (na & nb & O1 & O2) P IH]; cbn [map sumZ]; auto.
      rewrite even_mod0 in *. elia. }
    assert (PS : Z.even (sumZ (s2of sm) - total_elec (sp_frags p)) = true).
    { assert (forall l1 l2 l3, length l1 = length l3 -> length l2 = length l3 ->
        Forall spin_ok l1 -> Forall spin_ok l2 -> Forall spin_ok l3 ->
        Forall parity_ok l1 -> Forall parity_ok l2 -> Forall parity_ok l3 ->
        Z.even (sumZ (s2of (zip3 (fun f1 f2 r => f_smult f1 + f_smult f2 - f_smult r) l1 l2 l3))
                - (total_elec l1 + total_elec l2 - total_elec l3)) = true) as G.
      { unfold s2of, total_elec. intros l1 l2 l3; revert l1 l2; induction l3 as [|r l3 IH];
          intros [|f1 l1] [|f2 l2] L1' L2' A1 A2 A3 B1 B2 B3; cbn [length] in *; try discriminate; auto.
        inversion A1 as [|? ? [_ C1]]; inversion A2 as [|? ? [_ C2]]; inversion A3 as [|? ? [_ C3]];
        inversion B1 as [|? ? (? & ? & D1 & D1')]; inversion B2 as [|? ? (? & ? & D2 & D2')];
        inversion B3 as [|? ? (? & ? & D3 & D3')]; subst.
        specialize (IH l1 l2 ltac:(lia) ltac:(lia)). cbn [zip3 map sumZ].
        rewrite even_mod0 in *. specialize (IH ltac:(auto) ltac:(auto) ltac:(auto) ltac:(auto) ltac:(auto) ltac:(auto)).
        elia. }
      rewrite TE. apply G; auto. }
    rewrite even_mod0 in *. elia.
Qed.

Lemma get_single_hop_occ csf s i a m si sa t :
  i <> a -> m = 0 \/ m = 1 ->
  get_single csf s i a m si sa = Ok t ->
  hop (1 - 2 * m) i a si sa (sp_frags s) (sp_frags t) /\
  total_elec (sp_frags t) = total_elec (sp_frags s) /\
  total_spin (sp_frags t) = total_spin (sp_frags s) /\
  (forall k f na nb, (k = i \/ k = a) -> nth_error (sp_frags t) k = Some f -> occ f na nb ->
     0 <= na /\ 0 <= nb).
Proof.
  intros Hne Hm H. destruct (get_single_hop _ _ _ _ _ _ _ _ Hne Hm H) as (A & B & C & D).
  split; [exact A|]. split; [exact B|]. split; [exact C|].
  intros k f na nb Hk E O. destruct (neleca_occ _ _ _ O) as [<- <-]. eapply D; eauto.
Qed.

Lemma shuffled_lookup V sdown sup s t k f g c :
  Forall spin_ok (sp_frags s) -> shuffled s t ->
  nth_error (sp_frags s) k = Some f -> nth_error (sp_frags t) k = Some g ->
  lookup (f_spin g) (get_ci_szrot V sdown sup f c) <> None.
Proof.
  intros HS (_ & [HR _] & HT) Ef Eg.
  apply Forall2_nth_error in HR as [_ HR]. destruct (HR k f g Ef Eg) as (_ & _ & _ & E).
  destruct (Forall_nth_error _ _ _ _ HT Eg) as [H1 H2]. rewrite <- E in H1, H2.
  apply shuffle_lookup; auto. exact (Forall_nth_error spin_ok _ _ _ HS Ef).
Qed.
