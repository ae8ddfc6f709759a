(** Electron hops: get_single, is_single_excitation_of, get_singles. *)
From Coq Require Import List ZArith Lia Bool Sorting.Sorted Sorting.Permutation.
From Verif Require Import Base BaseFacts SpacesModel SpacesSpec SpacesTables.
Import ListNotations.
Local Open Scope Z_scope.

Ltac fcbn := cbn [f_norb f_nel0 f_charge f_spin f_smult lose gain].

Lemma div2_sub2 x : (x - 2) / 2 = x / 2 - 1.
Proof. replace (x - 2) with (x + (-1) * 2) by lia. rewrite Z.div_add; lia. Qed.
Lemma div2_add2 x : (x + 2) / 2 = x / 2 + 1.
Proof. replace (x + 2) with (x + 1 * 2) by lia. rewrite Z.div_add; lia. Qed.

Lemma neleca_lose m ds f : m = 0 \/ m = 1 -> neleca (lose (1 - 2 * m) ds f) = neleca f - (1 - m).
Proof.
  intros [->| ->]; unfold neleca, nelec, lose; cbn.
  - rewrite <- div2_sub2. f_equal; lia.
  - rewrite Z.sub_0_r. f_equal; lia.
Qed.
Lemma nelecb_lose m ds f : m = 0 \/ m = 1 -> nelecb (lose (1 - 2 * m) ds f) = nelecb f - m.
Proof.
  intros [->| ->]; unfold nelecb, nelec, lose; cbn.
  - rewrite Z.sub_0_r. f_equal; lia.
  - rewrite <- div2_sub2. f_equal; lia.
Qed.
Lemma neleca_gain m ds f : m = 0 \/ m = 1 -> neleca (gain (1 - 2 * m) ds f) = neleca f + (1 - m).
Proof.
  intros [->| ->]; unfold neleca, nelec, gain; cbn.
  - rewrite <- div2_add2. f_equal; lia.
  - rewrite Z.add_0_r. f_equal; lia.
Qed.
Lemma nelecb_gain m ds f : m = 0 \/ m = 1 -> nelecb (gain (1 - 2 * m) ds f) = nelecb f + m.
Proof.
  intros [->| ->]; unfold nelecb, nelec, gain; cbn.
  - rewrite Z.add_0_r. f_equal; lia.
  - rewrite <- div2_add2. f_equal; lia.
Qed.

Definition hopped (m : Z) (i a : nat) (si sa : Z) (fs : frags) : frags :=
  upd a (gain (1 - 2 * m) sa) (upd i (lose (1 - 2 * m) si) fs).

Lemma hopped_nth_i m i a si sa fs : i <> a ->
  nth_error (hopped m i a si sa fs) i = option_map (lose (1 - 2 * m) si) (nth_error fs i).
Proof. intros H. unfold hopped. rewrite nth_error_upd_neq, nth_error_upd_eq; auto. Qed.
Lemma hopped_nth_a m i a si sa fs : i <> a ->
  nth_error (hopped m i a si sa fs) a = option_map (gain (1 - 2 * m) sa) (nth_error fs a).
Proof. intros H. unfold hopped. rewrite nth_error_upd_eq, nth_error_upd_neq; auto. Qed.
Lemma hopped_nth_o m i a si sa fs k : k <> i -> k <> a ->
  nth_error (hopped m i a si sa fs) k = nth_error fs k.
Proof. intros H1 H2. unfold hopped. rewrite !nth_error_upd_neq; auto. Qed.
Lemma hopped_length m i a si sa fs : length (hopped m i a si sa fs) = length fs.
Proof. unfold hopped. rewrite !upd_length; auto. Qed.

Lemma hop_hopped m i a si sa fs :
  i <> a -> (i < length fs)%nat -> (a < length fs)%nat ->
  hop (1 - 2 * m) i a si sa fs (hopped m i a si sa fs).
Proof.
  intros Hne Hi Ha. unfold hop. split; auto. split; [apply hopped_length|].
  split; [intros; apply hopped_nth_o; auto|].
  destruct (nth_error fs i) as [fi|] eqn:Ei; [|apply nth_error_None in Ei; lia].
  destruct (nth_error fs a) as [fa|] eqn:Ea; [|apply nth_error_None in Ea; lia].
  split.
  - exists fi, (lose (1 - 2 * m) si fi). rewrite hopped_nth_i, Ei by auto.
    repeat split; fcbn; lia.
  - exists fa, (gain (1 - 2 * m) sa fa). rewrite hopped_nth_a, Ea by auto.
    repeat split; fcbn; lia.
Qed.

Lemma frag_ext f g : f_norb f = f_norb g -> f_nel0 f = f_nel0 g -> f_charge f = f_charge g ->
  f_spin f = f_spin g -> f_smult f = f_smult g -> f = g.
Proof. destruct f, g; cbn; intros; subst; auto. Qed.

Lemma hop_det m i a si sa fs t :
  hop (1 - 2 * m) i a si sa fs t -> t = hopped m i a si sa fs.
Proof.
  intros (Hne & HL & HO & (fi & fi' & Ei & Ei' & Ci) & (fa & fa' & Ea & Ea' & Ca)).
  apply list_ext. intros k.
  destruct (Nat.eq_dec k i) as [->|Hki].
  { rewrite hopped_nth_i, Ei, Ei' by auto. cbn [option_map]. f_equal.
    destruct Ci as (? & ? & ? & ? & ?). apply frag_ext; fcbn; lia. }
  destruct (Nat.eq_dec k a) as [->|Hka].
  { rewrite hopped_nth_a, Ea, Ea' by auto. cbn [option_map]. f_equal.
    destruct Ca as (? & ? & ? & ? & ?). apply frag_ext; fcbn; lia. }
  rewrite hopped_nth_o, HO; auto.
Qed.

Lemma get_single_shape csf s i a m si sa t :
  get_single csf s i a m si sa = Ok t ->
  t = mkspace (hopped m i a si sa (sp_frags s)) [] /\
  exists fi fa, nth_error (hopped m i a si sa (sp_frags s)) i = Some fi /\
                nth_error (hopped m i a si sa (sp_frags s)) a = Some fa /\
                0 <= neleca fi /\ 0 <= nelecb fi /\ 0 <= neleca fa /\ 0 <= nelecb fa.
Proof.
  unfold get_single. fold (hopped m i a si sa (sp_frags s)).
  destruct (nth_error _ i) as [fi|]; [|discriminate].
  destruct (nth_error _ a) as [fa|]; [|discriminate].
  destruct (csf (f_norb fi) _ _ _) as [ni|]; [|discriminate]. cbn [bind].
  destruct (csf (f_norb fa) _ _ _) as [na|]; [|discriminate]. cbn [bind].
  destruct (_ && _ && _); [discriminate|]. destruct (_ && _ && _); [discriminate|].
  unfold py_assert.
  destruct (0 <=? neleca fi) eqn:E1; [|discriminate].
  destruct (0 <=? nelecb fi) eqn:E2; [|discriminate].
  destruct (0 <=? neleca fa) eqn:E3; [|discriminate].
  destruct (0 <=? nelecb fa) eqn:E4; [|discriminate].
  destruct (negb (ni =? 0)); [|discriminate].
  destruct (negb (na =? 0)); [|discriminate].
  intros [= <-]. split; auto. exists fi, fa. repeat split; auto; lia.
Qed.

Lemma nth_error_map {A B} (f : A -> B) l k : nth_error (map f l) k = option_map f (nth_error l k).
Proof. revert k; induction l; intros [|k]; cbn; auto. Qed.

Lemma hop_total dm i a si sa s t : hop dm i a si sa s t ->
  total_elec t = total_elec s /\ total_spin t = total_spin s.
Proof.
  intros H. assert (Hm : exists m, dm = 1 - 2 * m \/ dm <> 1 - 2 * m) by (exists 0; lia). clear Hm.
  destruct H as (Hne & HL & HO & (fi & fi' & Ei & Ei' & Ci) & (fa & fa' & Ea & Ea' & Ca)).
  assert (HG : forall (p : frag -> Z), sumZ (map p t) = sumZ (map p s) + (p fi' - p fi) + (p fa' - p fa)).
  { intros p.
    assert (map p t = upd a (fun _ => p fa') (upd i (fun _ => p fi') (map p s))) as ->.
    { apply list_ext; intros k.
      destruct (Nat.eq_dec k i) as [->|Hki].
      { rewrite nth_error_upd_neq, nth_error_upd_eq, !nth_error_map, Ei, Ei'; auto. }
      destruct (Nat.eq_dec k a) as [->|Hka].
      { rewrite nth_error_upd_eq, nth_error_upd_neq, !nth_error_map, Ea, Ea'; auto. }
      rewrite !nth_error_upd_neq, !nth_error_map, HO; auto. }
    rewrite (sumZ_upd (fun _ => p fa') a _ (p fa)).
    2:{ rewrite nth_error_upd_neq, nth_error_map, Ea; auto. }
    rewrite (sumZ_upd (fun _ => p fi') i _ (p fi)).
    2:{ rewrite nth_error_map, Ei; auto. }
    lia. }
  destruct Ci as (? & ? & ? & ? & ?), Ca as (? & ? & ? & ? & ?).
  unfold total_elec, total_spin. split; rewrite HG; lia.
Qed.

Lemma nth_error_hopped_range m i a si sa fs fi fa :
  nth_error (hopped m i a si sa fs) i = Some fi ->
  nth_error (hopped m i a si sa fs) a = Some fa ->
  (i < length fs)%nat /\ (a < length fs)%nat.
Proof.
  intros H1 H2. rewrite <- (hopped_length m i a si sa fs).
  split; apply nth_error_Some; congruence.
Qed.

(** C01 *)
Lemma get_single_hop csf s i a m si sa t :
  i <> a -> m = 0 \/ m = 1 ->
  get_single csf s i a m si sa = Ok t ->
  hop (1 - 2 * m) i a si sa (sp_frags s) (sp_frags t) /\
  total_elec (sp_frags t) = total_elec (sp_frags s) /\
  total_spin (sp_frags t) = total_spin (sp_frags s) /\
  (forall k f, (k = i \/ k = a) -> nth_error (sp_frags t) k = Some f -> 0 <= neleca f /\ 0 <= nelecb f).
Proof.
  intros Hne Hm H. apply get_single_shape in H as (-> & fi & fa & Hi & Ha & H1 & H2 & H3 & H4). cbn [sp_frags].
  pose proof (nth_error_hopped_range _ _ _ _ _ _ _ _ Hi Ha) as [Li La].
  pose proof (hop_hopped m i a si sa (sp_frags s) Hne Li La) as HH.
  split; auto. destruct (hop_total _ _ _ _ _ _ _ HH) as [E1 E2].
  split; auto. split; auto.
  intros k f [->| ->] Hk; [rewrite Hi in Hk|rewrite Ha in Hk]; injection Hk as <-; auto.
Qed.

(** reversal: the opposite hop restores the space *)
Lemma hopped_back m i a si sa fs :
  i <> a -> hopped m a i (- sa) (- si) (hopped m i a si sa fs) = fs.
Proof.
  intros Hne. apply list_ext; intros k.
  destruct (Nat.eq_dec k i) as [->|Hki].
  { rewrite hopped_nth_a, hopped_nth_i by auto. destruct (nth_error fs i); cbn [option_map]; auto.
    f_equal. apply frag_ext; fcbn; lia. }
  destruct (Nat.eq_dec k a) as [->|Hka].
  { rewrite hopped_nth_i, hopped_nth_a by auto. destruct (nth_error fs a); cbn [option_map]; auto.
    f_equal. apply frag_ext; fcbn; lia. }
  rewrite !hopped_nth_o; auto.
Qed.

(** get_single succeeds on physical results *)
Lemma neleca_occ f na nb : occ f na nb -> neleca f = na /\ nelecb f = nb.
Proof.
  intros [H1 H2]. unfold neleca, nelecb, nelec. split.
  - replace (f_nel0 f - f_charge f + f_spin f) with (na * 2) by lia. apply Z.div_mul; lia.
  - replace (f_nel0 f - f_charge f - f_spin f) with (nb * 2) by lia. apply Z.div_mul; lia.
Qed.

Lemma get_single_ok csf s i a m si sa fi fa :
  csf_sound csf ->
  nth_error (hopped m i a si sa (sp_frags s)) i = Some fi ->
  nth_error (hopped m i a si sa (sp_frags s)) a = Some fa ->
  valid_frag fi -> valid_frag fa ->
  get_single csf s i a m si sa = Ok (mkspace (hopped m i a si sa (sp_frags s)) []).
Proof.
  intros HC Hi Ha (na1 & nb1 & Ho1 & P1) (na2 & nb2 & Ho2 & P2).
  unfold get_single. fold (hopped m i a si sa (sp_frags s)). rewrite Hi, Ha.
  destruct (neleca_occ _ _ _ Ho1) as [-> ->]. destruct (neleca_occ _ _ _ Ho2) as [-> ->].
  destruct (HC _ _ _ _ P1) as (n1 & -> & Hn1). destruct (HC _ _ _ _ P2) as (n2 & -> & Hn2).
  cbn [bind]. destruct P1 as (A1&A2&A3&A4&A5&A6), P2 as (B1&B2&B3&B4&B5&B6).
  assert ((na2 =? f_norb fa) && (nb2 =? f_norb fa) && (f_smult fa >? 1) = false) as ->.
  { destruct (Z.eqb_spec na2 (f_norb fa)); cbn; auto.
    destruct (Z.eqb_spec nb2 (f_norb fa)); cbn; auto. lia. }
  assert ((na1 =? 0) && (nb1 =? 0) && (f_smult fi >? 1) = false) as ->.
  { destruct (Z.eqb_spec na1 0); cbn; auto.
    destruct (Z.eqb_spec nb1 0); cbn; auto. lia. }
  unfold py_assert.
  replace (0 <=? na1) with true by lia. replace (0 <=? nb1) with true by lia.
  replace (0 <=? na2) with true by lia. replace (0 <=? nb2) with true by lia.
  destruct (Z.eqb_spec n1 0); [contradiction|]. destruct (Z.eqb_spec n2 0); [contradiction|].
  reflexivity.
Qed.

(** C02 *)
Lemma list_eqb_eq a b : list_eqb a b = true <-> a = b.
Proof.
  revert b; induction a; intros [|y b]; cbn; split; intros H; try discriminate; auto.
  - apply andb_true_iff in H as [H1 H2]. apply Z.eqb_eq in H1. apply IHa in H2. congruence.
  - injection H as -> ->. rewrite Z.eqb_refl. cbn. apply IHa; auto.
Qed.

Lemma sort2 x y : list_eqb (sort_z [x; y]) [-1; 1] = true <-> (x = -1 /\ y = 1) \/ (x = 1 /\ y = -1).
Proof.
  rewrite list_eqb_eq. cbn. destruct (Z.leb_spec x y); split; intros HH.
  - injection HH as -> ->. auto.
  - destruct HH as [[-> ->]|[-> ->]]; auto. lia.
  - injection HH as -> ->. auto.
  - destruct HH as [[-> ->]|[-> ->]]; auto. lia.
Qed.

Lemma zipw_nth {A B} (p : A -> B -> bool) l l' k da db :
  length l = length l' -> (k < length l)%nat ->
  nth k (zipw p l l') false = p (nth k l da) (nth k l' db).
Proof.
  unfold zipw. revert l' k; induction l as [|x l IH]; intros [|y l'] [|k] HL Hk; cbn in *; try lia; auto.
  apply IH; lia.
Qed.
Lemma zipw_length {A B C} (p : A -> B -> C) l l' :
  length l = length l' -> length (zipw p l l') = length l.
Proof. intros H. unfold zipw. rewrite map_length, combine_length. lia. Qed.

Lemma excited_false_same f g :
  nelec f = nelec f -> 
  excited_frag false f g = false <->
  (neleca f = neleca g /\ nelecb f = nelecb g /\ f_smult f = f_smult g).
Proof.
  intros _. unfold excited_frag. rewrite negb_false_iff, !andb_true_iff, !Z.eqb_eq. lia.
Qed.

(** parity-consistent fragment *)
Definition parity_ok (f : frag) : Prop := exists na nb, occ f na nb.

Lemma same_orb_ext f g :
  parity_ok f -> parity_ok g -> f_norb f = f_norb g -> f_nel0 f = f_nel0 g ->
  neleca f = neleca g -> nelecb f = nelecb g -> f_smult f = f_smult g -> f = g.
Proof.
  intros (na & nb & H1) (na' & nb' & H2) E1 E2 E3 E4 E5.
  destruct (neleca_occ _ _ _ H1) as [F1 F2]. destruct (neleca_occ _ _ _ H2) as [G1 G2].
  destruct H1, H2. apply frag_ext; lia.
Qed.

Definition same_orbs (s t : frags) : Prop :=
  Forall2 (fun f g => f_norb f = f_norb g /\ f_nel0 f = f_nel0 g) s t.

Lemma filter_two (p : nat -> bool) n :
  length (filter p (seq 0 n)) = 2%nat <->
  exists x y, filter p (seq 0 n) = [x; y] /\ (x < y < n)%nat /\
   (forall k, (k < n)%nat -> (p k = true <-> k = x \/ k = y)).
Proof.
  split.
  - intros HL. destruct (filter p (seq 0 n)) as [|x [|y [|]]] eqn:E; cbn in HL; try lia.
    exists x, y. split; auto.
    assert (HI : forall k, In k [x; y] <-> (k < n)%nat /\ p k = true).
    { intros k. rewrite <- E, filter_In, in_seq. intuition lia. }
    assert (HN : NoDup [x; y]). { rewrite <- E. apply NoDup_filter, seq_NoDup. }
    assert (HS : StronglySorted Nat.lt [x; y]).
    { rewrite <- E. apply StronglySorted_filter. clear.
      generalize 0%nat. induction n; intros m; cbn; constructor; auto.
      apply Forall_forall. intros y Hy. apply in_seq in Hy. unfold Nat.lt. lia. }
    split.
    + inversion HS; subst. inversion H2; subst.
      destruct (HI y) as [H _]. destruct H; [cbn; auto|]. unfold Nat.lt in *. lia.
    + intros k Hk. specialize (HI k). cbn in HI. split.
      * intros H. destruct (proj2 HI (conj Hk H)) as [?|[?|[]]]; auto.
      * intros H. apply (proj1 HI). destruct H; auto.
  - intros (x & y & -> & _). reflexivity.
Qed.

Lemma nth_error_nth_lt {A} (l : list A) k d : (k < length l)%nat -> nth_error l k = Some (nth k l d).
Proof. revert k; induction l; intros [|k] H; cbn in *; try lia; auto. apply IHl; lia. Qed.

Theorem is_single_iff s t :
  same_orbs s t -> Forall parity_ok s -> Forall parity_ok t ->
  (is_single_excitation_of s t = true <->
   exists dm i a si sa, (dm = 1 \/ dm = -1) /\ (si = 1 \/ si = -1) /\ (sa = 1 \/ sa = -1)
     /\ hop dm i a si sa t s).
Proof.
  intros HO Hs Ht.
  assert (HL : length s = length t) by (eapply Forall2_length; eauto).
  set (S := fun k => nth k s default_frag). set (T := fun k => nth k t default_frag).
  assert (ES : forall k, (k < length s)%nat -> nth_error s k = Some (S k)).
  { intros; apply nth_error_nth_lt; auto. }
  assert (ET : forall k, (k < length s)%nat -> nth_error t k = Some (T k)).
  { intros; apply nth_error_nth_lt; lia. }
  assert (PS : forall k, (k < length s)%nat -> parity_ok (S k)).
  { intros k Hk. eapply Forall_forall; [exact Hs|]. eapply nth_error_In; eauto. }
  assert (PT : forall k, (k < length s)%nat -> parity_ok (T k)).
  { intros k Hk. eapply Forall_forall; [exact Ht|]. eapply nth_error_In; eauto. }
  assert (OO : forall k, (k < length s)%nat -> f_norb (S k) = f_norb (T k) /\ f_nel0 (S k) = f_nel0 (T k)).
  { intros k Hk. apply Forall2_nth_error in HO as [_ HO]. eapply HO; eauto. }
  assert (HX : forall k, (k < length s)%nat ->
     nth k (excited_fragments false s t) false = excited_frag false (S k) (T k)).
  { intros k Hk. apply zipw_nth; auto. }
  assert (Hlen : length (excited_fragments false s t) = length s) by (apply zipw_length; auto).
  unfold is_single_excitation_of.
  split.
  - destruct (_ =? _) eqn:E1; [|discriminate]. cbn [negb].
    destruct (sumZ (map f_spin s) =? _) eqn:E2; [|discriminate]. cbn [negb].
    set (idx := true_idx _).
    destruct (Nat.eqb_spec (length idx) 2) as [Hi2|]; [|discriminate]. cbn [negb].
    unfold idx, true_idx in Hi2. rewrite Hlen in Hi2.
    apply filter_two in Hi2 as (x & y & Eidx & Hxy & HP).
    assert (idx = [x; y]) as -> by (unfold idx, true_idx; rewrite Hlen; exact Eidx).
    cbn [map]. fold (S x) (S y) (T x) (T y).
    destruct (list_eqb _ _) eqn:E3; [|discriminate]. apply sort2 in E3. cbn [negb].
    destruct (list_eqb _ _) eqn:E4; [|discriminate]. apply sort2 in E4. cbn [negb].
    cbn [forallb]. rewrite andb_true_r, andb_true_iff, !Z.eqb_eq. intros [E5 E6].
    assert (Hoth : forall k, k <> x -> k <> y -> nth_error s k = nth_error t k).
    { intros k H1 H2. destruct (Nat.lt_ge_cases k (length s)) as [Hk|Hk].
      - rewrite ES, ET by auto. f_equal.
        assert (excited_frag false (S k) (T k) = false) as HE.
        { rewrite <- HX by auto. specialize (HP k Hk). apply not_true_iff_false. tauto. }
        apply excited_false_same in HE as (? & ? & ?); auto.
        destruct (OO k Hk). apply same_orb_ext; auto.
      - rewrite !(proj2 (nth_error_None _ _)); auto; lia. }
    destruct (OO x) as [Ox1 Ox2]; [lia|]. destruct (OO y) as [Oy1 Oy2]; [lia|].
    unfold nelec in E3.
    assert (HHop : forall p q, (p = x /\ q = y) \/ (p = y /\ q = x) ->
       nelec (S p) - nelec (T p) = -1 -> 
       exists dm i a si sa, (dm = 1 \/ dm = -1) /\ (si = 1 \/ si = -1) /\ (sa = 1 \/ sa = -1)
         /\ hop dm i a si sa t s).
    { intros p q Hpq Hp.
      exists (f_spin (S q) - f_spin (T q)), p, q, (f_smult (S p) - f_smult (T p)), (f_smult (S q) - f_smult (T q)).
      unfold nelec in Hp.
      assert (Hlt : (p < length s)%nat /\ (q < length s)%nat) by lia.
      destruct Hlt as [Hp' Hq'].
      split; [destruct Hpq as [[-> ->]|[-> ->]]; lia|].
      split; [destruct Hpq as [[-> ->]|[-> ->]]; lia|].
      split; [destruct Hpq as [[-> ->]|[-> ->]]; lia|].
      split; [lia|]. split; [lia|]. split.
      { intros k Hk1 Hk2. apply Hoth; destruct Hpq as [[-> ->]|[-> ->]]; auto. }
      split.
      - exists (T p), (S p). split; [auto|]. split; [auto|].
        destruct Hpq as [[-> ->]|[-> ->]]; repeat split; auto; lia.
      - exists (T q), (S q). split; [auto|]. split; [auto|].
        destruct Hpq as [[-> ->]|[-> ->]]; repeat split; auto; lia. }
    destruct E3 as [[E3 _]|[_ E3]].
    + apply (HHop x y); auto.
    + apply (HHop y x); auto.
  - intros (dm & i & a & si & sa & Hdm & Hsi & Hsa & HH).
    pose proof (hop_total _ _ _ _ _ _ _ HH) as [HE HM].
    unfold total_elec in HE. unfold total_spin in HM.
    replace (sumZ (map nelec s) =? sumZ (map nelec t)) with true
      by (symmetry; apply Z.eqb_eq; exact HE).
    rewrite HM, Z.eqb_refl. cbn [negb].
    destruct HH as (Hne & HL' & Hoth & (fi & fi' & Ei & Ei' & Ci) & (fa & fa' & Ea & Ea' & Ca)).
    assert (Li : (i < length s)%nat) by (apply nth_error_Some; congruence).
    assert (La : (a < length s)%nat) by (apply nth_error_Some; congruence).
    rewrite (ES i Li) in Ei'. rewrite (ET i Li) in Ei. rewrite (ES a La) in Ea'. rewrite (ET a La) in Ea.
    injection Ei as <-. injection Ei' as <-. injection Ea as <-. injection Ea' as <-.
    destruct Ci as (C1 & C2 & C3 & C4 & C5), Ca as (D1 & D2 & D3 & D4 & D5).
    assert (HP : forall k, (k < length s)%nat ->
       (nth k (excited_fragments false s t) false = true <-> k = i \/ k = a)).
    { intros k Hk. rewrite HX by auto. split.
      - intros HE'. destruct (Nat.eq_dec k i); auto. destruct (Nat.eq_dec k a); auto.
        assert (S k = T k) as HST. { pose proof (Hoth k n n0) as HH. rewrite ES, ET in HH by auto. congruence. }
        exfalso. apply eq_true_false_abs in HE'; auto. rewrite HST.
        apply excited_false_same; auto.
      - intros Hk'. destruct (excited_frag false (S k) (T k)) eqn:EE; auto.
        apply excited_false_same in EE as (_ & _ & EE); auto.
        destruct Hk' as [->| ->]; lia. }
    set (idx := true_idx _).
    assert (Hidx : idx = [Nat.min i a; Nat.max i a]).
    { unfold idx, true_idx. rewrite Hlen.
      set (p := fun k => nth k (excited_fragments false s t) false) in *.
      assert (HPerm : Permutation (filter p (seq 0 (length s))) [i; a]).
      { apply NoDup_Permutation.
        - apply NoDup_filter, seq_NoDup.
        - constructor; [cbn; intuition congruence|]. constructor; auto. constructor.
        - intros k. rewrite filter_In, in_seq. split.
          + intros [Hk Hpk]. unfold p in Hpk. apply HP in Hpk; [|lia]. cbn; intuition.
          + intros Hk. assert (k = i \/ k = a) as Hk' by (cbn in Hk; intuition).
            assert (k < length s)%nat by (destruct Hk'; lia).
            split; [lia|]. apply HP; auto. }
      assert (H2 : length (filter p (seq 0 (length s))) = 2%nat).
      { rewrite (Permutation_length HPerm). reflexivity. }
      apply filter_two in H2 as (x & y & E & Hxy & _). rewrite E in *.
      assert (Hx : In x [i; a]) by (eapply Permutation_in; [exact HPerm|left; auto]).
      assert (Hy : In y [i; a]) by (eapply Permutation_in; [exact HPerm|right; left; auto]).
      cbn in Hx, Hy. f_equal; [|f_equal]; lia. }
    rewrite Hidx. cbn [length Nat.eqb negb map].
    assert (HG : forall (p : frag -> Z), 
      ((p (S (Nat.min i a)) - p (T (Nat.min i a)) = p (S i) - p (T i) /\
        p (S (Nat.max i a)) - p (T (Nat.max i a)) = p (S a) - p (T a)) \/
       (p (S (Nat.min i a)) - p (T (Nat.min i a)) = p (S a) - p (T a) /\
        p (S (Nat.max i a)) - p (T (Nat.max i a)) = p (S i) - p (T i)))).
    { intros p. destruct (Nat.le_ge_cases i a).
      - rewrite Nat.min_l, Nat.max_r by auto. auto.
      - rewrite Nat.min_r, Nat.max_l by auto. auto. }
    fold (S (Nat.min i a)) (T (Nat.min i a)) (S (Nat.max i a)) (T (Nat.max i a)).
    assert (N1 : nelec (S i) - nelec (T i) = -1) by (unfold nelec; lia).
    assert (N2 : nelec (S a) - nelec (T a) = 1) by (unfold nelec; lia).
    rewrite (proj2 (sort2 (nelec (S (Nat.min i a)) - nelec (T (Nat.min i a))) _)).
    2:{ destruct (HG nelec) as [[-> ->]|[-> ->]]; lia. }
    cbn [negb].
    rewrite (proj2 (sort2 (f_spin (S (Nat.min i a)) - f_spin (T (Nat.min i a))) _)).
    2:{ destruct (HG f_spin) as [[-> ->]|[-> ->]]; lia. }
    cbn [negb forallb]. destruct (HG f_smult) as [[-> ->]|[-> ->]]; lia.
Qed.
