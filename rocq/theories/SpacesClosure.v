(** Lists of rootspaces: removal of duplicates, all_single_excitations, _spin_shuffle,
    count_excitations. *)
From Coq Require Import List ZArith Lia Bool Sorting.Sorted Sorting.Permutation
  Relations.Relation_Operators.
From Verif Require Import Base BaseFacts SpacesModel SpacesSpec SpacesTables SpacesCoupling
  SpacesHop SpacesEnum.
Import ListNotations.
Local Open Scope Z_scope.

(** all rootspaces of one calculation share the orbitals and neutral electron counts *)
Definition orbs (fs : frags) : list (Z * Z) := map (fun f => (f_norb f, f_nel0 f)) fs.

(** a rootspace over orbitals [O] that has no entanglement map *)
Definition plain (O : list (Z * Z)) (s : space) : Prop :=
  orbs (sp_frags s) = O /\ sp_entmap s = [].

Lemma space_eqb_plain O x y : plain O x -> plain O y -> (space_eqb x y = true <-> x = y).
Proof.
  intros [Ox Ex] [Oy Ey]. destruct x as [fx ex], y as [fy ey]; cbn in *. subst ex ey.
  unfold space_eqb; cbn. split.
  - destruct (Nat.eqb_spec (length fx) (length fy)) as [HL|]; [|discriminate]. cbn [negb].
    rewrite !andb_true_iff, !list_eqb_eq. intros [[E1 E2] E3]. f_equal.
    rewrite <- Oy in Ox. clear Oy. revert fy Ox HL E1 E2 E3.
    induction fx as [|f fx IH]; intros [|g fy] HO HL E1 E2 E3; cbn in *; try lia; auto.
    injection HO as ? ? HO. injection E1 as ? E1. injection E2 as ? E2. injection E3 as ? E3.
    f_equal; [apply frag_ext; auto|]. apply IH; auto.
  - intros [= ->]. rewrite Nat.eqb_refl. cbn [negb]. rewrite !andb_true_iff, !list_eqb_eq. auto.
Qed.

Lemma space_dec (x y : space) : {x = y} + {x <> y}.
Proof.
  destruct x as [fx ex], y as [fy ey].
  destruct (list_eq_dec (list_eq_dec Nat.eq_dec) ex ey); [|right; congruence].
  assert (forall f g : frag, {f = g} + {f <> g}) as HD.
  { decide equality; apply Z.eq_dec. }
  destruct (list_eq_dec HD fx fy); [left|right]; congruence.
Qed.

Lemma mapM_ok {A B} (f : A -> res B) (l : list A) (P : A -> B -> Prop) :
  (forall x, In x l -> exists y, f x = Ok y /\ P x y) ->
  exists ys, mapM f l = Ok ys /\ Forall2 P l ys.
Proof.
  induction l as [|x l IH]; intros H; cbn.
  - exists []; auto.
  - destruct (H x) as (y & -> & Hy); [left; auto|].
    destruct IH as (ys & -> & Hys); [intros; apply H; right; auto|].
    exists (y :: ys). cbn. auto.
Qed.

Lemma Forall2_concat_in {A B} (P : A -> list B -> Prop) (Q : A -> B -> Prop) l ys :
  (forall x y, P x y -> forall b, In b y <-> Q x b) ->
  Forall2 P l ys -> forall b, In b (concat ys) <-> exists x, In x l /\ Q x b.
Proof.
  intros HQ H. induction H as [|x y l ys Hxy H IH]; intros b; cbn.
  - split; [tauto|]. intros (x & [] & _).
  - rewrite in_app_iff, IH, (HQ _ _ Hxy). split.
    + intros [H1|(z & H1 & H2)]; eauto.
    + intros (z & [->|H1] & H2); eauto.
Qed.

Section Hash2.
Variable hash : list Z * list (list nat) -> Z.
Variable O : list (Z * Z).

Lemma in_set_plain x l : plain O x -> Forall (plain O) l -> (in_set hash x l = true <-> In x l).
Proof.
  intros Hx Hl. unfold in_set. rewrite existsb_exists. split.
  - intros (y & Hy & H). apply andb_true_iff in H as [_ H].
    rewrite Forall_forall in Hl. apply (space_eqb_plain O) in H; auto. subst; auto.
  - intros Hin. exists x. split; auto. rewrite Z.eqb_refl. cbn.
    apply (space_eqb_plain O); auto.
Qed.

Lemma append_unseen_spec new : forall seen,
  Forall (plain O) seen -> Forall (plain O) new ->
  let r := append_unseen hash seen new in
  NoDup r /\ (forall x, In x r <-> In x new /\ ~ In x seen).
Proof.
  induction new as [|x new IH]; intros seen Hs Hn; cbn.
  - split; [constructor|]. tauto.
  - inversion Hn as [|? ? Hx Hn']; subst.
    destruct (in_set hash x seen) eqn:E.
    + apply in_set_plain in E; auto. destruct (IH seen Hs Hn') as [IH1 IH2].
      split; auto. intros y. rewrite IH2. split; [tauto|].
      intros [[->|H] H']; tauto.
    + assert (~ In x seen) as Hni.
      { intros H. apply in_set_plain in H; auto. congruence. }
      destruct (IH (x :: seen)) as [IH1 IH2]; auto.
      split.
      * constructor; auto. rewrite IH2. cbn. tauto.
      * intros y. cbn [In]. rewrite IH2. cbn [In]. split.
        -- intros [->|[H1 H2]]; tauto.
        -- intros [[->|H1] H2]; auto.
           destruct (space_dec x y) as [->|]; auto. right. split; auto. intros [?|?]; auto.
Qed.

Lemma extend_spec refs new :
  Forall (plain O) refs -> Forall (plain O) new ->
  let r := refs ++ append_unseen hash refs new in
  (forall x, In x r <-> In x refs \/ In x new) /\
  (NoDup refs -> NoDup r) /\
  (length r = length refs -> r = refs).
Proof.
  intros Hr Hn r. destruct (append_unseen_spec new refs Hr Hn) as [H1 H2].
  unfold r. split; [|split].
  - intros x. rewrite in_app_iff, H2. split; [tauto|].
    intros [H|H]; auto. destruct (in_dec space_dec x refs); auto.
  - intros HN. clear r. revert HN H1 H2. generalize (append_unseen hash refs new).
    clear. intros l HN H1 H2.
    assert (HD : forall x, In x refs -> ~ In x l) by (intros x Hx Hl; apply H2 in Hl; tauto).
    clear H2. induction refs as [|a refs IH]; cbn; auto.
    inversion HN; subst. constructor.
    + rewrite in_app_iff. intros [?|?]; [auto|]. apply (HD a); cbn; auto.
    + apply IH; auto. intros x Hx. apply HD; cbn; auto.
  - rewrite app_length. intros HL.
    destruct (append_unseen hash refs new); [apply app_nil_r|cbn in HL; lia].
Qed.

(** one allowed hop between valid rootspaces *)
Definition hop1 (mask : nat -> nat -> bool) (s t : space) : Prop :=
  sp_entmap t = [] /\ Forall valid_frag (sp_frags t) /\
  exists dm i a si sa, (dm = 1 \/ dm = -1) /\ mask i a = true /\
    (si = 1 \/ si = -1) /\ (sa = 1 \/ sa = -1) /\
    hop dm i a si sa (sp_frags s) (sp_frags t).

Lemma hop_orbs dm i a si sa s t : hop dm i a si sa s t -> orbs t = orbs s.
Proof.
  intros (Hne & HL & Hoth & (f1 & f2 & E1 & E2 & C1) & (f3 & f4 & E3 & E4 & C2)).
  apply list_ext. intros k. unfold orbs. rewrite !nth_error_map.
  destruct (Nat.eq_dec k i) as [->|].
  { rewrite E1, E2. cbn. destruct C1 as (-> & -> & _). auto. }
  destruct (Nat.eq_dec k a) as [->|].
  { rewrite E3, E4. cbn. destruct C2 as (-> & -> & _). auto. }
  rewrite Hoth; auto.
Qed.

Variable csf : Z -> Z -> Z -> Z -> res Z.
Hypothesis HC : csf_sound csf.

Definition good (s : space) : Prop := plain O s /\ Forall valid_frag (sp_frags s).

Lemma hop1_good mask s t : good s -> hop1 mask s t -> good t.
Proof.
  intros [[HO HE] HV] (H1 & H2 & dm & i & a & si & sa & _ & _ & _ & _ & HH).
  split; auto. split; auto. rewrite (hop_orbs _ _ _ _ _ _ _ HH). auto.
Qed.

Theorem all_single_exact mask refs :
  Forall good refs ->
  exists l, all_single_excitations hash csf mask refs = Ok l /\
    (exists new, l = refs ++ new) /\
    (NoDup refs -> NoDup l) /\
    Forall good l /\
    (length l = length refs -> l = refs) /\
    (forall t, In t l <-> In t refs \/ exists s, In s refs /\ hop1 mask s t).
Proof.
  intros HG. unfold all_single_excitations.
  destruct (mapM_ok (fun s => get_singles csf s mask) refs
              (fun s l => forall t, In t l <-> hop1 mask s t)) as (ys & -> & Hys).
  { intros s Hs. rewrite Forall_forall in HG. destruct (HG s Hs) as [_ HV].
    destruct (get_singles_exact csf s mask HC HV) as (l & E & Hl). exists l; split; auto. }
  cbn [bind].
  pose proof (Forall2_concat_in _ (fun s t => hop1 mask s t) _ _ (fun s y H => H) Hys) as Hin.
  assert (HGn : Forall good (concat ys)).
  { apply Forall_forall. intros t Ht. apply Hin in Ht as (s & Hs & Hh).
    rewrite Forall_forall in HG. eapply hop1_good; eauto. }
  assert (Hp1 : Forall (plain O) refs). { eapply Forall_impl; [|exact HG]. intros s [H _]; auto. }
  assert (Hp2 : Forall (plain O) (concat ys)). { eapply Forall_impl; [|exact HGn]. intros s [H _]; auto. }
  destruct (extend_spec refs (concat ys) Hp1 Hp2) as (E1 & E2 & E3).
  eexists; split; [reflexivity|]. split; [eexists; reflexivity|]. split; auto.
  split; [|split; auto].
  - apply Forall_forall. intros t Ht. apply E1 in Ht. rewrite !Forall_forall in *. destruct Ht; auto.
  - intros t. rewrite E1, Hin. tauto.
Qed.

(** reachability by any number of hops *)
Definition reach (s t : space) : Prop := clos_refl_trans_n1 _ (hop1 (fun _ _ => true)) s t.

Lemma count_loop_exact l0 : forall fuel ncalls lprev l1 n k l,
  Forall good lprev ->
  all_single_excitations hash csf (fun _ _ => true) lprev = Ok l1 ->
  (forall t, In t lprev -> exists s, In s l0 /\ reach s t) ->
  (forall t, In t l0 -> In t lprev) ->
  (NoDup l0 -> NoDup lprev) ->
  count_loop hash csf fuel ncalls (length lprev) l1 = Ok (n, k, l) ->
  n = length l /\ (NoDup l0 -> NoDup l) /\
  (forall t, In t l <-> exists s, In s l0 /\ reach s t).
Proof.
  induction fuel as [|fuel IH]; intros ncalls lprev l1 n k l HG E1 Hreach Hin HN HL.
  - destruct (all_single_exact (fun _ _ => true) lprev HG) as (l1' & E & (new & Enew) & H1 & H2 & H3 & H4).
    rewrite E1 in E. injection E as <-.
    cbn [count_loop] in HL. destruct (Nat.ltb_spec (length lprev) (length l1)) as [|Hle]; [discriminate|].
    injection HL as <- <- <-.
    assert (length l1 = length lprev) as Hlen. { rewrite Enew, app_length in Hle |- *. lia. }
    specialize (H3 Hlen). clear Enew. subst l1.
    split; auto. split; auto. intros t. split; auto.
    intros (s & Hs & Hr). induction Hr as [|y z Hyz Hr IHr]; auto.
    apply H4. right. eauto.
  - destruct (all_single_exact (fun _ _ => true) lprev HG) as (l1' & E & (new & Enew) & H1 & H2 & H3 & H4).
    rewrite E1 in E. injection E as <-. cbn [count_loop] in HL.
    destruct (Nat.eqb_spec (length l1) (length lprev)) as [Hlen|Hlen].
    + injection HL as <- <- <-. specialize (H3 Hlen). clear Enew. subst l1.
      split; auto. split; auto. intros t. split; auto.
      intros (s & Hs & Hr). induction Hr as [|y z Hyz Hr IHr]; auto.
      apply H4. right. eauto.
    + destruct (all_single_excitations hash csf (fun _ _ => true) l1) as [l2|] eqn:E2; [|discriminate].
      cbn [bind] in HL. eapply (IH (S ncalls) l1 l2); eauto.
      * intros t Ht. apply H4 in Ht as [Ht|(s & Hs & Hh)]; auto.
        destruct (Hreach s Hs) as (r & Hr & Hrs). exists r; split; auto.
        eapply rtn1_trans; eauto.
      * intros t Ht. apply H4. left; auto.
Qed.

Theorem count_excitations_exact l0 n k l :
  Forall good l0 ->
  count_excitations hash csf l0 = Ok (n, k, l) ->
  n = length l /\ (NoDup l0 -> NoDup l) /\
  (forall t, In t l <-> exists s, In s l0 /\ reach s t).
Proof.
  intros HG H. unfold count_excitations in H.
  destruct (all_single_excitations hash csf (fun _ _ => true) l0) as [l1|] eqn:E; [|discriminate].
  cbn [bind] in H. eapply (count_loop_exact l0 500 0 l0 l1); eauto.
  intros t Ht. exists t; split; auto. constructor.
Qed.
End Hash2.

(** ** spin shuffling (C06) *)
Lemma set_spins_cons f fs m ms :
  set_spins (f :: fs) (m :: ms) =
  mkfrag (f_norb f) (f_nel0 f) (f_charge f) m (f_smult f) :: set_spins fs ms.
Proof. reflexivity. Qed.

Lemma set_spins_shuffle fs g M :
  (exists t, microstate (map f_smult fs) M t /\ g = set_spins fs t) <->
  Forall2 (fun f h => f_norb f = f_norb h /\ f_nel0 f = f_nel0 h /\ f_charge f = f_charge h
                      /\ f_smult f = f_smult h) fs g /\ Forall spin_ok g /\ total_spin g = M.
Proof.
  unfold microstate, total_spin. split.
  - intros (t & [H <-] & ->). remember (map f_smult fs) as sm. revert fs Heqsm.
    induction H as [|S m sm t [H1 H2] H IH]; intros fs Heq; destruct fs as [|f fs]; try discriminate.
    + cbn. auto.
    + injection Heq as -> ->. rewrite set_spins_cons. destruct (IH fs eq_refl) as (I1 & I2 & I3).
      split; [constructor; auto|]. split; [constructor; auto; split; auto|].
      cbn. rewrite I3. auto.
  - intros (H1 & H2 & <-). exists (map f_spin g). split; [split; auto|].
    + induction H1 as [|f h fs g (E1 & E2 & E3 & E4) H IH]; cbn; constructor.
      * inversion H2 as [|? ? [? ?] ?]; subst. rewrite E4. split; auto.
      * inversion H2; subst. apply IH; auto.
    + clear H2. induction H1 as [|f h fs g (E1 & E2 & E3 & E4) H IH]; auto.
      cbn [map]. rewrite set_spins_cons, <- IH. f_equal. destruct f, h; cbn in *; congruence.
Qed.

Lemma spin_ok_sum fs : Forall spin_ok fs ->
  sumZ (map f_spin fs) <= sumZ (s2of (map f_smult fs)) /\
  Z.even (sumZ (s2of (map f_smult fs)) - sumZ (map f_spin fs)) = true /\
  Forall (fun S => 1 <= S) (map f_smult fs).
Proof.
  induction 1 as [|f fs [H1 H2] H (I1 & I2 & I3)]; [cbn; repeat split; auto; lia|].
  unfold s2of in *. cbn [map sumZ]. fold (s2of (map f_smult fs)) in *.
  split; [lia|]. split; [|constructor; auto; lia].
  replace (f_smult f - 1 + sumZ (s2of (map f_smult fs)) - (f_spin f + sumZ (map f_spin fs)))
    with ((f_smult f - 1 - f_spin f) + (sumZ (s2of (map f_smult fs)) - sumZ (map f_spin fs))) by lia.
  apply even_sum; auto.
Qed.

Definition shuffled (s t : space) : Prop :=
  sp_entmap t = sp_entmap s /\ shuffle_rel (sp_frags s) (sp_frags t) /\ Forall spin_ok (sp_frags t).

Theorem gen_spin_shuffles_exact s :
  Forall spin_ok (sp_frags s) ->
  exists l, gen_spin_shuffles s = Ok l /\ NoDup l /\ (forall t, In t l <-> shuffled s t).
Proof.
  intros HS. unfold gen_spin_shuffles.
  destruct (spin_ok_sum _ HS) as (H1 & H2 & H3).
  destruct (spin_table_exact _ _ H3 H1 H2) as (tb & -> & Hsort & Htb). cbn [bind].
  eexists; split; [reflexivity|].
  assert (Hin : forall t, In t (map (fun spins => mkspace (set_spins (sp_frags s) spins) (sp_entmap s)) tb)
                 <-> shuffled s t).
  { intros t. rewrite in_map_iff. unfold shuffled, shuffle_rel. split.
    - intros (spins & <- & Hsp). apply Htb in Hsp. cbn [sp_frags sp_entmap].
      destruct (proj1 (set_spins_shuffle (sp_frags s) (set_spins (sp_frags s) spins)
                         (sumZ (map f_spin (sp_frags s))))) as (A & B & C); [eauto|].
      split; auto. 
    - intros (E & [HR HT] & HK).
      destruct (proj2 (set_spins_shuffle (sp_frags s) (sp_frags t) (total_spin (sp_frags s)))) as (sp & Hm & Hsp).
      { auto. }
      exists sp. split; [|apply Htb; auto]. destruct t as [ft et]; cbn in *. congruence. }
  split; auto.
  apply sorted_lexlt_NoDup in Hsort.
  assert (Hlen : forall t, In t tb -> length t = length (sp_frags s)).
  { intros t Ht. apply Htb in Ht as [Ht _]. apply Forall2_length in Ht. rewrite map_length in Ht. auto. }
  clear Hin Htb. induction Hsort as [|x tb Hx Hsort IH]; cbn; constructor.
  - rewrite in_map_iff. intros (y & E & Hy). apply Hx.
    injection E as E.
    assert (x = y) as ->; auto.
    assert (HE : forall z, In z (x :: tb) -> map f_spin (set_spins (sp_frags s) z) = z).
    { intros z Hz. apply Hlen in Hz. clear -Hz. revert z Hz.
      induction (sp_frags s) as [|f fs IHf]; intros [|m z] Hz; cbn in Hz; try lia; auto.
      rewrite set_spins_cons. cbn. rewrite IHf; auto. }
    rewrite <- (HE x), <- (HE y), E; auto. right; auto. left; auto.
  - apply IH. intros t Ht. apply Hlen. right; auto.
Qed.

Lemma shuffled_refl s : Forall spin_ok (sp_frags s) -> shuffled s s.
Proof.
  intros H. split; auto. split; auto. split; auto.
  clear H. induction (sp_frags s); constructor; auto.
Qed.

Lemma shuffled_trans s t u : shuffled s t -> shuffled t u -> shuffled s u.
Proof.
  intros (E1 & [R1 T1] & K1) (E2 & [R2 T2] & K2). split; [congruence|]. split; auto. split; [|congruence].
  clear -R1 R2. revert R2. generalize (sp_frags u) as lu. induction R1 as [|f g l l' (A & B & C & D) R IH]; intros lu R2;
    inversion R2 as [|? ? ? ? (A' & B' & C' & D')]; subst; constructor; auto. repeat split; congruence.
Qed.

Section Shuf.
Variable hash : list Z * list (list nat) -> Z.
Variable O : list (Z * Z).
Definition sgood (s : space) : Prop := plain O s /\ Forall spin_ok (sp_frags s).

Lemma shuffled_good s t : sgood s -> shuffled s t -> sgood t.
Proof.
  intros [[HO HE] HS] (E & [R T] & K). split; auto. split; [|congruence]. rewrite <- HO.
  clear -R. unfold orbs. induction R as [|f g l l' (A & B & C & D) R IH]; cbn; auto. congruence.
Qed.

Theorem spin_shuffle_exact refs :
  Forall sgood refs ->
  exists l, spin_shuffle hash refs = Ok l /\
    (exists new, l = refs ++ new) /\
    (NoDup refs -> NoDup l) /\
    (forall t, In t l <-> exists s, In s refs /\ shuffled s t) /\
    spin_shuffle hash l = Ok l.
Proof.
  assert (Main : forall refs, Forall sgood refs ->
    exists l, spin_shuffle hash refs = Ok l /\ (exists new, l = refs ++ new) /\
    (NoDup refs -> NoDup l) /\ (forall t, In t l <-> exists s, In s refs /\ shuffled s t) /\
    Forall sgood l /\
    ((forall t, In t l -> In t refs) -> l = refs)).
  { clear refs; intros refs HG. unfold spin_shuffle.
    destruct (mapM_ok gen_spin_shuffles refs (fun s l => forall t, In t l <-> shuffled s t))
      as (ys & -> & Hys).
    { intros s Hs. rewrite Forall_forall in HG. destruct (HG s Hs) as [_ HV].
      destruct (gen_spin_shuffles_exact s HV) as (l & E & _ & Hl). exists l; split; auto. }
    cbn [bind].
    pose proof (Forall2_concat_in _ shuffled _ _ (fun s y H => H) Hys) as Hin.
    assert (HGn : Forall sgood (concat ys)).
    { apply Forall_forall. intros t Ht. apply Hin in Ht as (s & Hs & Hh).
      rewrite Forall_forall in HG. eapply shuffled_good; eauto. }
    assert (Hp1 : Forall (plain O) refs). { eapply Forall_impl; [|exact HG]. intros s [H _]; auto. }
    assert (Hp2 : Forall (plain O) (concat ys)). { eapply Forall_impl; [|exact HGn]. intros s [H _]; auto. }
    destruct (extend_spec hash O refs (concat ys) Hp1 Hp2) as (E1 & E2 & E3).
    destruct (append_unseen_spec hash O (concat ys) refs Hp1 Hp2) as (A1 & A2).
    eexists; split; [reflexivity|]. split; [eexists; reflexivity|]. split; auto.
    split; [|split].
    - intros t. rewrite E1, Hin. split; [|intros H; right; exact H].
      intros [H|H]; auto. exists t; split; auto. apply shuffled_refl.
      rewrite Forall_forall in HG. apply HG; auto.
    - apply Forall_forall. intros t Ht. apply E1 in Ht. rewrite !Forall_forall in *. destruct Ht; auto.
    - intros Hsub. destruct (append_unseen hash refs (concat ys)) as [|x r] eqn:Ea; [apply app_nil_r|].
      exfalso. destruct (A2 x) as [A2' _]. destruct A2' as [_ Hnot]; [left; auto|].
      apply Hnot. apply Hsub. apply in_or_app; right; left; auto. }
  intros HG. destruct (Main refs HG) as (l & E & Hpre & HN & Hin & HG' & _).
  exists l. do 4 (split; [assumption|]).
  destruct (Main l HG') as (l2 & E2 & _ & _ & Hin2 & _ & Hfix).
  rewrite E2. f_equal. apply Hfix. intros t Ht. apply Hin2 in Ht as (s & Hs & Hst).
  apply Hin in Hs as (r & Hr & Hrs). apply Hin. exists r; split; auto.
  eapply shuffled_trans; eauto.
Qed.
End Shuf.
