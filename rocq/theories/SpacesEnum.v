(** describe_single_excitation, get_singles, all_single_excitations, spin shuffling. *)
From Coq Require Import List ZArith Lia Bool Sorting.Sorted Sorting.Permutation.
From Verif Require Import Base BaseFacts SpacesModel SpacesSpec SpacesTables SpacesCoupling SpacesHop.
Import ListNotations.
Local Open Scope Z_scope.

Lemma first_idx_spec p n k :
  (k < n)%nat -> p k = true -> (forall j, (j < n)%nat -> p j = true -> j = k) ->
  first_idx p n = Some k.
Proof.
  intros Hk Hp Hu. unfold first_idx.
  destruct (filter p (seq 0 n)) as [|x l] eqn:E.
  - assert (In k []) as []. rewrite <- E. apply filter_In. rewrite in_seq. split; [lia|auto].
  - assert (In x (filter p (seq 0 n))) as Hx by (rewrite E; left; auto).
    apply filter_In in Hx as [Hx1 Hx2]. apply in_seq in Hx1. f_equal. apply Hu; auto. lia.
Qed.

Lemma spin_dm_cases dm : dm = 1 \/ dm = -1 -> exists m, (m = 0 \/ m = 1) /\ dm = 1 - 2 * m.
Proof. intros [->| ->]; [exists 0|exists 1]; lia. Qed.

(** C02, second half *)
Theorem describe_single_correct s t :
  same_orbs s t -> Forall parity_ok s -> Forall parity_ok t ->
  is_single_excitation_of s t = true ->
  exists d, describe_single_excitation s t = Ok (Some d) /\
    hop (if d_alpha d then 1 else -1) (d_src d) (d_dest d)
        (if d_src_up d then 1 else -1) (if d_dest_up d then 1 else -1) t s.
Proof.
  intros HO Hs Ht HI.
  unfold describe_single_excitation. rewrite HI. cbn [negb].
  apply is_single_iff in HI; auto.
  destruct HI as (dm & i & a & si & sa & Hdm & Hsi & Hsa & HH).
  assert (HL : length s = length t) by (eapply Forall2_length; eauto).
  pose proof HH as HH0.
  destruct HH as (Hne & HL' & Hoth & (fi & fi' & Ei & Ei' & Ci) & (fa & fa' & Ea & Ea' & Ca)).
  assert (Li : (i < length s)%nat) by (apply nth_error_Some; congruence).
  assert (La : (a < length s)%nat) by (apply nth_error_Some; congruence).
  set (S := fun k => nth k s default_frag). set (T := fun k => nth k t default_frag).
  assert (ES : forall k, (k < length s)%nat -> nth_error s k = Some (S k)).
  { intros; apply nth_error_nth_lt; auto. }
  assert (ET : forall k, (k < length s)%nat -> nth_error t k = Some (T k)).
  { intros; apply nth_error_nth_lt; lia. }
  rewrite (ES i Li) in Ei'. rewrite (ET i Li) in Ei. rewrite (ES a La) in Ea'. rewrite (ET a La) in Ea.
  injection Ei as <-. injection Ei' as <-. injection Ea as <-. injection Ea' as <-.
  assert (Hsame : forall k, (k < length s)%nat -> k <> i -> k <> a -> S k = T k).
  { intros k Hk H1 H2. pose proof (Hoth k H1 H2) as H. rewrite ES, ET in H by auto. congruence. }
  assert (PS : forall k, (k < length s)%nat -> parity_ok (S k)).
  { intros k Hk. eapply Forall_forall; [exact Hs|]. eapply nth_error_In; eauto. }
  assert (PT : forall k, (k < length s)%nat -> parity_ok (T k)).
  { intros k Hk. eapply Forall_forall; [exact Ht|]. eapply nth_error_In; eauto. }
  destruct Ci as (C1 & C2 & C3 & C4 & C5), Ca as (D1 & D2 & D3 & D4 & D5).
  rewrite (first_idx_spec _ _ i); auto.
  2:{ fold (S i) (T i). unfold nelec. lia. }
  2:{ intros j Hj. fold (S j) (T j). intros Hp. destruct (Nat.eq_dec j i); auto.
      destruct (Nat.eq_dec j a) as [->|].
      - unfold nelec in Hp. lia.
      - rewrite (Hsame j) in Hp by auto. lia. }
  rewrite (first_idx_spec _ _ a); auto.
  2:{ fold (S a) (T a). unfold nelec. lia. }
  2:{ intros j Hj. fold (S j) (T j). intros Hp. destruct (Nat.eq_dec j a); auto.
      destruct (Nat.eq_dec j i) as [->|].
      - unfold nelec in Hp. lia.
      - rewrite (Hsame j) in Hp by auto. lia. }
  eexists; split; [reflexivity|]. cbn [d_src d_dest d_alpha d_src_up d_dest_up].
  fold (S i) (T i) (S a) (T a).
  replace (if f_smult (S i) >? f_smult (T i) then 1 else -1) with si
    by (destruct (Z.gtb_spec (f_smult (S i)) (f_smult (T i))); lia).
  replace (if f_smult (S a) >? f_smult (T a) then 1 else -1) with sa
    by (destruct (Z.gtb_spec (f_smult (S a)) (f_smult (T a))); lia).
  assert ((if existsb (fun k => negb (neleca (nth k s default_frag) =? neleca (nth k t default_frag)))
           (seq 0 (length s)) then 1 else -1) = dm) as ->; [|exact HH0].
  destruct (PS i Li) as (na & nb & O1). destruct (PT i Li) as (na' & nb' & O2).
  destruct (PS a La) as (xa & xb & O3). destruct (PT a La) as (xa' & xb' & O4).
  destruct (neleca_occ _ _ _ O1) as [A1 A2]. destruct (neleca_occ _ _ _ O2) as [A3 A4].
  destruct (neleca_occ _ _ _ O3) as [A5 A6]. destruct (neleca_occ _ _ _ O4) as [A7 A8].
  destruct O1, O2, O3, O4.
  destruct (existsb _ _) eqn:E.
  - apply existsb_exists in E as (k & Hk & E). apply in_seq in Hk. fold (S k) (T k) in E.
    apply negb_true_iff, Z.eqb_neq in E.
    destruct (Nat.eq_dec k i) as [->|]; [lia|]. destruct (Nat.eq_dec k a) as [->|]; [lia|].
    rewrite (Hsame k) in E by (auto; lia). congruence.
  - destruct Hdm as [->| ->]; auto. exfalso.
    apply not_true_iff_false in E. apply E. apply existsb_exists. exists i.
    rewrite in_seq. split; [lia|]. fold (S i) (T i). apply negb_true_iff, Z.eqb_neq. lia.
Qed.

Lemma even_mod0 a : Z.even a = true <-> a mod 2 = 0.
Proof. rewrite <- even_mod. apply Z.eqb_eq. Qed.

Ltac elia := Z.div_mod_to_equations; lia.

Lemma occ_lose m d f na nb : occ f na nb ->
  occ (lose (1 - 2 * m) d f) (na - (1 - m)) (nb - m).
Proof. intros [H1 H2]. unfold occ. fcbn. lia. Qed.
Lemma occ_gain m d f na nb : occ f na nb ->
  occ (gain (1 - 2 * m) d f) (na + (1 - m)) (nb + m).
Proof. intros [H1 H2]. unfold occ. fcbn. lia. Qed.
Lemma occ_inj f na nb na' nb' : occ f na nb -> occ f na' nb' -> na = na' /\ nb = nb'.
Proof. unfold occ. lia. Qed.

Lemma in_change f d dna dnb :
  In d (get_valid_smult_change f dna dnb) <->
  (d = -1 /\ f_smult f > Z.abs (neleca f + dna - (nelecb f + dnb)) + 1) \/
  (d = 1 /\ f_smult f < 1 + (neleca f + dna) + (nelecb f + dnb)
                         - 2 * Z.max 0 (neleca f + dna + (nelecb f + dnb) - f_norb f)).
Proof.
  unfold get_valid_smult_change. rewrite in_app_iff.
  destruct (Z.gtb_spec (f_smult f) (Z.abs (neleca f + dna - (nelecb f + dnb)) + 1));
  destruct (Z.ltb_spec (f_smult f) (1 + (neleca f + dna) + (nelecb f + dnb)
                         - 2 * Z.max 0 (neleca f + dna + (nelecb f + dnb) - f_norb f)));
  cbn [In]; lia.
Qed.

Definition nel_of (m : Z) (f : frag) : Z := if m =? 0 then neleca f else nelecb f.
Definition nhole_of (m : Z) (f : frag) : Z := if m =? 0 then nholea f else nholeb f.

Lemma lose_valid m d f : m = 0 \/ m = 1 -> valid_frag f ->
  (((d = 1 \/ d = -1) /\ valid_frag (lose (1 - 2 * m) d f)) <->
   (nel_of m f > 0 /\ In d (get_valid_smult_change f (- (1 - m)) (- m)))).
Proof.
  intros Hm (na & nb & O & P). rewrite in_change.
  destruct (neleca_occ _ _ _ O) as [E1 E2].
  assert (HN : nel_of m f = if m =? 0 then na else nb) by (unfold nel_of; rewrite E1, E2; auto).
  rewrite HN, E1, E2. clear HN.
  destruct P as (P1 & P2 & P3 & P4 & P5 & P6). apply even_mod0 in P6.
  split.
  - intros [Hd (na' & nb' & O' & Q)].
    destruct (occ_inj _ _ _ _ _ O' (occ_lose m d _ _ _ O)) as [-> ->].
    unfold physical in Q. fcbn. cbn [f_norb f_smult lose] in Q.
    destruct Q as (Q1 & Q2 & Q3 & Q4 & Q5 & Q6). apply even_mod0 in Q6.
    destruct Hm as [->| ->]; cbn [Z.eqb]; elia.
  - intros [H1 H2]. split; [lia|].
    exists (na - (1 - m)), (nb - m). split; [apply occ_lose; auto|].
    unfold physical. fcbn. rewrite even_mod0.
    destruct Hm as [->| ->]; cbn [Z.eqb] in H1; repeat split; elia.
Qed.

Lemma gain_valid m d f : m = 0 \/ m = 1 -> valid_frag f ->
  (((d = 1 \/ d = -1) /\ valid_frag (gain (1 - 2 * m) d f)) <->
   (nhole_of m f > 0 /\ In d (get_valid_smult_change f (1 - m) m))).
Proof.
  intros Hm (na & nb & O & P). rewrite in_change.
  destruct (neleca_occ _ _ _ O) as [E1 E2].
  assert (HN : nhole_of m f = if m =? 0 then f_norb f - na else f_norb f - nb)
    by (unfold nhole_of, nholea, nholeb; rewrite E1, E2; auto).
  rewrite HN, E1, E2. clear HN.
  destruct P as (P1 & P2 & P3 & P4 & P5 & P6). apply even_mod0 in P6.
  split.
  - intros [Hd (na' & nb' & O' & Q)].
    destruct (occ_inj _ _ _ _ _ O' (occ_gain m d _ _ _ O)) as [-> ->].
    unfold physical in Q. fcbn. cbn [f_norb f_smult gain] in Q.
    destruct Q as (Q1 & Q2 & Q3 & Q4 & Q5 & Q6). apply even_mod0 in Q6.
    destruct Hm as [->| ->]; cbn [Z.eqb]; elia.
  - intros [H1 H2]. split; [lia|].
    exists (na + (1 - m)), (nb + m). split; [apply occ_gain; auto|].
    unfold physical. fcbn. rewrite even_mod0.
    destruct Hm as [->| ->]; cbn [Z.eqb] in H1; repeat split; elia.
Qed.

Lemma in_product {A B} (l : list A) (l' : list B) x y :
  In (x, y) (product l l') <-> In x l /\ In y l'.
Proof.
  unfold product. rewrite in_flat_map. split.
  - intros (z & Hz & H). apply in_map_iff in H as (w & [= -> ->] & Hw). auto.
  - intros [H1 H2]. exists x; split; auto. apply in_map_iff. eauto.
Qed.

Lemma in_where p fs k : In k (where_ p fs) <-> (k < length fs)%nat /\ p (nth k fs default_frag) = true.
Proof. unfold where_. rewrite filter_In, in_seq. intuition lia. Qed.

Lemma in_candidates s mask he hh dna dnb i a si sa :
  In ((i, a), (si, sa)) (single_candidates s mask he hh dna dnb) <->
  i <> a /\ mask i a = true /\
  (i < length (sp_frags s))%nat /\ (a < length (sp_frags s))%nat /\
  he (nth i (sp_frags s) default_frag) = true /\ hh (nth a (sp_frags s) default_frag) = true /\
  In si (get_valid_smult_change (nth i (sp_frags s) default_frag) (- dna) (- dnb)) /\
  In sa (get_valid_smult_change (nth a (sp_frags s) default_frag) dna dnb).
Proof.
  unfold single_candidates. rewrite in_flat_map. split.
  - intros ([i' a'] & Hp & H). apply in_product in Hp as [Hp1 Hp2].
    apply in_where in Hp1 as [? ?]. apply in_where in Hp2 as [? ?].
    destruct (Nat.eqb_spec i' a'); [destruct H|]. destruct (mask i' a') eqn:EM; [|destruct H].
    cbn [negb] in H. apply in_map_iff in H as ([x y] & [= -> -> -> ->] & H).
    apply in_product in H as [? ?]. repeat split; auto.
  - intros (H1 & H2 & H3 & H4 & H5 & H6 & H7 & H8).
    exists (i, a). split; [apply in_product; split; apply in_where; auto|].
    destruct (Nat.eqb_spec i a); [contradiction|]. rewrite H2. cbn [negb].
    apply in_map_iff. exists (si, sa). split; auto. apply in_product; auto.
Qed.

Lemma collect_all csf s m l :
  (forall i a si sa, In ((i, a), (si, sa)) l ->
     get_single csf s i a m si sa = Ok (mkspace (hopped m i a si sa (sp_frags s)) [])) ->
  collect_singles csf s m l =
  Ok (map (fun c => mkspace (hopped m (fst (fst c)) (snd (fst c)) (fst (snd c)) (snd (snd c))
                                    (sp_frags s)) []) l).
Proof.
  induction l as [|[[i a] [si sa]] l IH]; intros H; auto.
  cbn [collect_singles]. rewrite H by (left; auto).
  rewrite IH by (intros; apply H; right; auto). reflexivity.
Qed.

Lemma hopped_valid m i a si sa fs fi fa :
  i <> a -> nth_error fs i = Some fi -> nth_error fs a = Some fa -> Forall valid_frag fs ->
  (Forall valid_frag (hopped m i a si sa fs) <->
   valid_frag (lose (1 - 2 * m) si fi) /\ valid_frag (gain (1 - 2 * m) sa fa)).
Proof.
  intros Hne Ei Ea HV. split.
  - intros H. rewrite Forall_forall in H. split; apply H.
    + apply (nth_error_In _ i). rewrite hopped_nth_i, Ei; auto.
    + apply (nth_error_In _ a). rewrite hopped_nth_a, Ea; auto.
  - intros [H1 H2]. apply Forall_forall. intros f Hf. apply In_nth_error in Hf as [k Hk].
    destruct (Nat.eq_dec k i) as [->|Hki].
    { rewrite hopped_nth_i, Ei in Hk by auto. injection Hk as <-. auto. }
    destruct (Nat.eq_dec k a) as [->|Hka].
    { rewrite hopped_nth_a, Ea in Hk by auto. injection Hk as <-. auto. }
    rewrite hopped_nth_o in Hk by auto. rewrite Forall_forall in HV. apply HV.
    eapply nth_error_In; eauto.
Qed.

(** one spin channel of get_singles *)
Lemma channel csf s mask m :
  (m = 0 \/ m = 1) -> csf_sound csf -> Forall valid_frag (sp_frags s) ->
  let l := single_candidates s mask (fun f => nel_of m f >? 0) (fun f => nhole_of m f >? 0) (1 - m) m in
  exists r, collect_singles csf s m l = Ok r /\
  forall t, In t r <->
    sp_entmap t = [] /\ Forall valid_frag (sp_frags t) /\
    exists i a si sa, mask i a = true /\ (si = 1 \/ si = -1) /\ (sa = 1 \/ sa = -1) /\
      hop (1 - 2 * m) i a si sa (sp_frags s) (sp_frags t).
Proof.
  intros Hm HC HV l.
  assert (HF : forall k, (k < length (sp_frags s))%nat -> valid_frag (nth k (sp_frags s) default_frag)).
  { intros k Hk. rewrite Forall_forall in HV. apply HV, nth_In; auto. }
  assert (Hcand : forall i a si sa, In ((i, a), (si, sa)) l <->
     i <> a /\ mask i a = true /\ (i < length (sp_frags s))%nat /\ (a < length (sp_frags s))%nat /\
     (si = 1 \/ si = -1) /\ (sa = 1 \/ sa = -1) /\ Forall valid_frag (hopped m i a si sa (sp_frags s))).
  { intros i a si sa. unfold l. rewrite in_candidates. split.
    - intros (H1 & H2 & H3 & H4 & H5 & H6 & H7 & H8).
      destruct (proj2 (lose_valid m si _ Hm (HF i H3))) as [A1 A2]; [split; [lia|auto]|].
      destruct (proj2 (gain_valid m sa _ Hm (HF a H4))) as [B1 B2]; [split; [lia|auto]|].
      do 6 (split; [auto|]).
      eapply hopped_valid; eauto using nth_error_nth_lt.
    - intros (H1 & H2 & H3 & H4 & H5 & H6 & H7).
      apply (hopped_valid m i a si sa (sp_frags s) _ _ H1
              (nth_error_nth_lt _ _ default_frag H3) (nth_error_nth_lt _ _ default_frag H4) HV) in H7 as [H7 H8].
      destruct (proj1 (lose_valid m si _ Hm (HF i H3)) (conj H5 H7)) as [A1 A2].
      destruct (proj1 (gain_valid m sa _ Hm (HF a H4)) (conj H6 H8)) as [B1 B2].
      repeat split; auto; lia. }
  rewrite collect_all.
  2:{ intros i a si sa Hin. apply Hcand in Hin as (H1 & H2 & H3 & H4 & H5 & H6 & H7).
      assert (HN : forall k, (k < length (sp_frags s))%nat ->
        exists f, nth_error (hopped m i a si sa (sp_frags s)) k = Some f /\ valid_frag f).
      { intros k Hk. destruct (nth_error (hopped m i a si sa (sp_frags s)) k) as [f|] eqn:E.
        - exists f; split; auto. rewrite Forall_forall in H7. apply H7. eapply nth_error_In; eauto.
        - apply nth_error_None in E. rewrite hopped_length in E. lia. }
      destruct (HN i H3) as (fi & Ei & Vi). destruct (HN a H4) as (fa & Ea & Va).
      eapply get_single_ok; eauto. }
  eexists; split; [reflexivity|]. intros t. rewrite in_map_iff. split.
  - intros ([[i a] [si sa]] & <- & Hin). cbn [fst snd sp_entmap sp_frags].
    apply Hcand in Hin as (H1 & H2 & H3 & H4 & H5 & H6 & H7).
    split; auto. split; auto. exists i, a, si, sa. repeat split; auto.
    all: apply hop_hopped; auto.
  - intros (H1 & H2 & i & a & si & sa & H3 & H4 & H5 & H6).
    exists ((i, a), (si, sa)). cbn [fst snd].
    pose proof (hop_det _ _ _ _ _ _ _ H6) as E.
    split.
    + destruct t as [ft et]; cbn in *. subst; auto.
    + apply Hcand. destruct H6 as (K1 & K2 & K3 & (f1 & f2 & F1 & _) & (f3 & f4 & F3 & _)).
      assert ((i < length (sp_frags s))%nat /\ (a < length (sp_frags s))%nat) as [? ?].
      { split; apply nth_error_Some; congruence. }
      repeat split; auto. rewrite <- E; auto.
Qed.

(** C03 *)
Theorem get_singles_exact csf s mask :
  csf_sound csf -> Forall valid_frag (sp_frags s) ->
  exists l, get_singles csf s mask = Ok l /\
  forall t, In t l <->
    sp_entmap t = [] /\ Forall valid_frag (sp_frags t) /\
    exists dm i a si sa, (dm = 1 \/ dm = -1) /\ mask i a = true /\
      (si = 1 \/ si = -1) /\ (sa = 1 \/ sa = -1) /\
      hop dm i a si sa (sp_frags s) (sp_frags t).
Proof.
  intros HC HV. unfold get_singles.
  destruct (channel csf s mask 0 (or_introl eq_refl) HC HV) as (la & Ela & Hla).
  destruct (channel csf s mask 1 (or_intror eq_refl) HC HV) as (lb & Elb & Hlb).
  cbn [nel_of nhole_of Z.eqb Z.sub Z.mul] in Ela, Elb.
  unfold nel_of, nhole_of in Ela, Elb. cbn in Ela, Elb.
  rewrite Ela. cbn [bind]. rewrite Elb. cbn [bind].
  eexists; split; [reflexivity|]. intros t. rewrite in_app_iff, Hla, Hlb. cbn [Z.sub Z.mul].
  split.
  - intros [(H1 & H2 & i & a & si & sa & H)|(H1 & H2 & i & a & si & sa & H)].
    + split; auto. split; auto. exists 1, i, a, si, sa. tauto.
    + split; auto. split; auto. exists (-1), i, a, si, sa. tauto.
  - intros (H1 & H2 & dm & i & a & si & sa & [->| ->] & H).
    + left. split; auto. split; auto. exists i, a, si, sa. tauto.
    + right. split; auto. split; auto. exists i, a, si, sa. tauto.
Qed.
