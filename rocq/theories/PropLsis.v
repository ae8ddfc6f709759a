(** C60: the variables of a LASSIS calculation and the step along them, my_pyscf/lassi/lassis/coords.py *)
From Coq Require Import List Arith ZArith Bool Lia Ring QArith Qcanon Reals Lra.
From Verif Require Import Base Star UggModel UggProofs LsisModel LsisProofs LsisPack LsisUpdModel LsisUpd.
Import ListNotations.

(** ** the tables of CSF transformers *)
(** A state of a fragment of [no] orbitals, as high in m as its spin allows. *)
Definition state (no na nb s : Z) : Prop := (0 <= nb <= na /\ na <= no /\ s = na - nb + 1)%Z.
(** The entry is the state with [dn] electrons and [ds] unpaired electrons more, None if there is none. *)
Definition is_state (no na nb s dn ds : Z) (entry : option tfarg) : Prop :=
  match entry with
  | Some (no', na', nb', s') => no' = no /\ (na' + nb' = na + nb + dn)%Z /\ (s' = s + ds)%Z /\ state no na' nb' s'
  | None => forall na' nb', (na' + nb' = na + nb + dn)%Z -> ~ state no na' nb' (s + ds)
  end.
Theorem C60_transformers : forall no na nb s, state no na nb s ->
  is_state no na nb s 0 (-2) (t_sf_arg no na nb s 0) /\ is_state no na nb s 0 2 (t_sf_arg no na nb s 1) /\
  is_state no na nb s (-1) (-1) (t_ch_i_arg no na nb s 0) /\ is_state no na nb s (-1) 1 (t_ch_i_arg no na nb s 1) /\
  is_state no na nb s 1 (-1) (t_ch_a_arg no na nb s 0) /\ is_state no na nb s 1 1 (t_ch_a_arg no na nb s 1).
Proof.
  intros no na nb s (H1 & H2 & H3).
  unfold t_sf_arg, t_ch_i_arg, t_ch_a_arg. cbn [Nat.eqb].
  repeat match goal with |- context [(?a <? ?b)%Z] => destruct (Z.ltb_spec a b) end; cbn [andb is_state];
    unfold state; repeat split; try lia; intros; lia.
Qed.

(** ** pack and unpack *)
Section T.
Variable K : star_ring.
Add Ring Kring4 : (sring K).
Local Open Scope star_scope.
Notation mat := (mat K).
Notation tfm := (tfm K).
Variable half : K.
Hypothesis Hhalf : half + half = s1.
Variables (nfrags nmo : nat) (idx : nat -> nat -> bool).
Hypothesis Hidx : forall p q, (p < nmo)%nat -> (q < nmo)%nat -> idx p q = true -> idx q p = false.
Variable transformer : key -> option tfm.
Variable ci0 : key -> option mat.
Hypothesis Hci0 : forall k c0, In k (keys nfrags) -> ci0 k = Some c0 ->
  exists t, transformer k = Some t /\ tfm_ok K t /\ nc c0 = tncsf t.
Variables (north nroots : nat) (si0 : mat).
Hypothesis Hsi : nr si0 = north /\ nc si0 = nroots.
Variables (raw2orth raw2orthH : mat -> mat).
Hypothesis Hraw : forall s, nr s = north -> nc s = nroots -> meq K (raw2orth (raw2orthH s)) s.
Hypothesis Hso : si_orthonormal K nroots si0.
Notation pack := (pack K half nfrags nmo idx transformer ci0 nroots si0 raw2orth).
Notation unpack := (unpack K half nfrags nmo idx transformer ci0 north nroots si0 raw2orthH).
Notation tangent := (tangent K nfrags nmo idx ci0 north nroots si0).
Notation shapes := (shapes K nfrags ci0).
Notation total := (total K nfrags nmo idx ci0 north nroots).
Notation active := (active K ci0).
Notation bsize := (bsize K ci0).

Lemma tangent_length x : tangent x -> length x = total.
Proof.
  intros (xo & bs & xz & e & -> & Lo & F & Lz & Re & Ce & _). rewrite !app_length, ravel_length, Lo, Lz, Re, Ce.
  rewrite (concat_sizes K ci0 (keys nfrags) bs).
  - unfold LsisPack.total, nblocks. lia.
  - clear -F. induction F; constructor; auto. now apply tangent_size.
Qed.

(** On the tangent space pack inverts unpack. *)
Theorem C60_pack_unpack : forall x, tangent x -> length x = total /\
  exists kappa ci si, unpack x = Ok (kappa, ci, si) /\ pack kappa ci si = Ok x /\ (forall p q, kappa q p = - kappa p q).
Proof.
  intros x Hx. split; [now apply tangent_length|]. destruct Hx as (xo & bs & xz & e & -> & Lo & F & Lz & Re & Ce & Pe).
  assert (Fs : Forall2 (fun k b => length b = bsize k) (keys nfrags) bs).
  { clear -F. induction F; constructor; auto. now apply tangent_size. }
  destruct (pack_unpack_core K half Hhalf nfrags nmo idx Hidx transformer ci0 Hci0 north nroots si0 Hsi raw2orth raw2orthH Hraw xo bs xz e Lo Fs Lz Re Ce Hso)
    as (kappa & ci & si & E & Sh & Sk & P).
  exists kappa, ci, si. split; [exact E|]. split; [|exact Sk]. rewrite (P Pe). do 3 f_equal.
  f_equal. clear - F. induction F as [|k b l bs T F IH]; [reflexivity|]. cbn [combine map fst snd]. now rewrite IH, again_tangent.
Qed.

(** Every vector of the right length can be unpacked. *)
Theorem C60_unpack_total : forall x, length x = total -> exists kappa ci si, unpack x = Ok (kappa, ci, si) /\
  shapes ci /\ (forall p q, kappa q p = - kappa p q).
Proof.
  intros x L. unfold LsisPack.total, nblocks in L.
  set (n1 := nvar_orb nmo idx) in *. set (n2 := sumN (map bsize (keys nfrags))) in *.
  destruct (split_blocks K ci0 (keys nfrags) (skipn n1 x)) as (bs & Eb & F). { rewrite skipn_length. fold n2. lia. }
  fold n2 in Eb.
  set (y := skipn n2 (skipn n1 x)).
  assert (Ly : length y = (nz nroots + north * nroots)%nat) by (unfold y; rewrite !skipn_length; lia).
  set (e := reshape K north nroots (skipn (nz nroots) y)).
  assert (Ex : x = firstn n1 x ++ concat bs ++ firstn (nz nroots) y ++ ravel K e).
  { unfold e. rewrite ravel_reshape by (rewrite skipn_length; lia). rewrite firstn_skipn, <- Eb. unfold y. rewrite !firstn_skipn. reflexivity. }
  destruct (pack_unpack_core K half Hhalf nfrags nmo idx Hidx transformer ci0 Hci0 north nroots si0 Hsi raw2orth raw2orthH Hraw (firstn n1 x) bs (firstn (nz nroots) y) e)
    as (kappa & ci & si & E & Sh & Sk & _); auto.
  - rewrite firstn_length. fold n1. lia.
  - rewrite firstn_length. lia.
  - rewrite <- Ex in E. exists kappa, ci, si. auto.
Qed.

Hypothesis Hon : forall k c0, In k (keys nfrags) -> active k = true -> ci0 k = Some c0 -> orthonormal K c0.
(** What pack returns lies in the tangent space: unpack and pack together project. *)
Theorem C60_pack_tangent : forall kappa ci si, shapes ci -> nr (raw2orth si) = north -> nc (raw2orth si) = nroots ->
  exists x kappa' ci' si', pack kappa ci si = Ok x /\ tangent x /\
    unpack x = Ok (kappa', ci', si') /\ pack kappa' ci' si' = Ok x.
Proof.
  intros kappa ci si Sh R C.
  destruct (pack_tangent K half nfrags nmo idx transformer ci0 Hci0 north nroots si0 Hsi raw2orth Hon kappa ci si Sh R C Hso) as (x & E & T).
  destruct (C60_pack_unpack x T) as (_ & kappa' & ci' & si' & E1 & E2 & _).
  exists x, kappa', ci', si'. auto.
Qed.

(** Directions that are tangent come back from pack and unpack. *)
Hypothesis HrawH : forall s s', meq K s s' -> meq K (raw2orthH s) (raw2orthH s').
Theorem C60_unpack_pack : forall kappa ci si,
  (forall p q, (p < nmo)%nat -> (q < nmo)%nat -> kappa q p = - kappa p q) ->
  (forall p q, (p < nmo)%nat -> (q < nmo)%nat -> idx p q = false -> idx q p = false -> kappa p q = s0) ->
  (forall k c0 t, In k (keys nfrags) -> active k = true -> ci0 k = Some c0 -> transformer k = Some t ->
     exists c, ci k = Some c /\ nr c = nr c0 /\ nc c = tndet t /\ perp K c0 (vec_det2csf K t c) /\
       forall r j, (r < nr c)%nat -> (j < tndet t)%nat -> c2d t (d2c t (el c r)) j = el c r j) ->
  nr (raw2orth si) = north -> nc (raw2orth si) = nroots -> meq K (raw2orthH (raw2orth si)) si ->
  (forall r s, (r < nroots)%nat -> (s < nroots)%nat ->
     el (adj_mul K si0 (raw2orth si)) s r = - el (adj_mul K si0 (raw2orth si)) r s) ->
  exists x kappa' ci' si', pack kappa ci si = Ok x /\ length x = total /\ unpack x = Ok (kappa', ci', si') /\
    (forall p q, (p < nmo)%nat -> (q < nmo)%nat -> kappa' p q = kappa p q) /\
    (forall k, In k (keys nfrags) -> active k = true -> exists c c', ci k = Some c /\ ci' k = Some c' /\ meq K c' c) /\
    meq K si' si.
Proof.
  intros kappa ci si Sk Sup Hc Rr Rc Hrs Hz. destruct Hsi as [H1 H2].
  assert (Sh : shapes ci).
  { intros k c0 Ik Ak E0. destruct (Hci0 k c0 Ik E0) as (t & Et & _). destruct (Hc k c0 t Ik Ak E0 Et) as (c & Ec & R & _). eauto. }
  destruct (mapM_in (pack_block K transformer ci0 ci) (keys nfrags)) as (bs & Em & F).
  { intros k Ik. unfold LsisModel.pack_block. destruct (active k) eqn:Ea; [|eauto].
    destruct (active_some K ci0 k Ea) as [c0 E0]. destruct (Hci0 k c0 Ik E0) as (t & Et & _). destruct (Sh k c0 Ik Ea E0) as (c & Ec & _).
    rewrite Et, E0, Ec. eauto. }
  assert (Fb : forall k b, In (k, b) (combine (keys nfrags) bs) -> pack_block K transformer ci0 ci k = Ok b) by (apply F2_combine; exact F).
  assert (Fs : Forall2 (fun k b => length b = bsize k) (keys nfrags) bs).
  { apply F2_intro; [eapply F2_len, F|]. intros k b I. assert (Ik : In k (keys nfrags)) by (eapply in_combine_l, I).
    pose proof (Fb k b I) as Eb. unfold LsisModel.pack_block in Eb. unfold LsisPack.bsize. destruct (active k) eqn:Ea; [|now injection Eb as <-].
    destruct (active_some K ci0 k Ea) as [c0 E0]. destruct (Hci0 k c0 Ik E0) as (t & Et & _ & Hn). destruct (Sh k c0 Ik Ea E0) as (c & Ec & R).
    rewrite Et, E0, Ec in Eb. injection Eb as <-. rewrite E0, ravel_length. cbn [remove vec_det2csf nr nc]. now rewrite R, Hn. }
  destruct (pack_parts K half nfrags nmo idx transformer ci0 nroots si0 raw2orth kappa ci si bs Em) as (xz & Ep & Ez).
  set (xo := map _ (positions nmo idx)) in Ep. set (s := raw2orth si) in *. set (z := adj_mul K si0 s) in *.
  set (e := sub K s (mul K si0 z)) in *.
  assert (Lo : length xo = nvar_orb nmo idx) by apply map_length.
  assert (Lz : length xz = nz nroots) by (rewrite Ez, map_length; apply tril_length).
  destruct (unpack_eq K half nfrags nmo idx transformer ci0 Hci0 north nroots si0 Hsi raw2orthH xo bs xz e Lo Fs Lz Rr Rc) as (kappa' & si' & Eu & Ek & Es).
  set (ci' := getk K _) in Eu.
  exists (xo ++ concat bs ++ xz ++ ravel K e), kappa', ci', (raw2orthH si').
  split; [exact Ep|]. split.
  { rewrite !app_length, Lo, Lz, (concat_sizes K ci0 (keys nfrags) bs Fs), ravel_length. cbn [e sub nr nc]. rewrite Rr, Rc.
    unfold LsisPack.total, nblocks. lia. }
  split; [exact Eu|]. split; [|split].
  - assert (Sc : forall p q, (p < nmo)%nat -> (q < nmo)%nat -> idx p q = true -> scatter s0 nmo idx xo p q = kappa p q).
    { intros p q P Q I.
      transitivity (half * (kappa p q - kappa q p)).
      - exact (scatter_gather s0 nmo idx (fun p q => half * (kappa p q - kappa q p)) p q P Q I).
      - rewrite (Sk p q P Q). transitivity (half * (kappa p q + kappa p q)); [ring | now apply halve]. }
    intros p q P Q. rewrite Ek. destruct (idx p q) eqn:I.
    + rewrite Sc by assumption. rewrite scatter_out; [ring|]. intros (_ & _ & C). rewrite (Hidx p q P Q I) in C. discriminate.
    + destruct (idx q p) eqn:J.
      * rewrite (Sc q p) by assumption. rewrite scatter_out by (intros (_ & _ & C); congruence). rewrite (Sk p q P Q). ring.
      * rewrite !scatter_out by (intros (_ & _ & C); congruence). rewrite Sup by assumption. ring.
  - intros k Ik Ea. destruct (active_some K ci0 k Ea) as [c0 E0]. destruct (Hci0 k c0 Ik E0) as (t & Et & Ht & Hn).
    destruct (Hc k c0 t Ik Ea E0 Et) as (c & Ec & R & Cc & Pc & Inv).
    assert (exists b, In (k, b) (combine (keys nfrags) bs)) as (b & Ib).
    { pose proof (F2_len _ _ _ F) as L. clear -Ik L. revert bs L. induction (keys nfrags) as [|k' l IH]; intros [|b bs] L; cbn in L; try lia; [contradiction|].
      destruct Ik as [->|Ik]; [exists b; now left|]. destruct (IH Ik bs) as (b' & I); [lia|]. exists b'. now right. }
    exists c. unfold ci'. rewrite (getk_seen K nfrags transformer ci0 bs Fs k b Ib). unfold seen. rewrite E0, Et, Ea.
    eexists. split; [exact Ec|]. split; [reflexivity|].
    pose proof (Fb k b Ib) as Eb. unfold LsisModel.pack_block in Eb. rewrite Ea, Et, E0, Ec in Eb. injection Eb as <-.
    set (m := remove K c0 (vec_det2csf K t c)).
    assert (Em' : meq K (reshape K (nr c0) (nc c0) (ravel K m)) (vec_det2csf K t c)).
    { apply meq_trans with m; [|now apply remove_perp_id].
      replace (nr c0) with (nr m) by (cbn; exact R). replace (nc c0) with (nc m) by (cbn; now rewrite Hn). apply reshape_ravel. }
    destruct Em' as (A & B & C). repeat split; cbn [vec_csf2det nr nc el]; [now rewrite R | now rewrite Cc|].
    intros r j Hr Hj. cbn [reshape nr] in Hr. rewrite <- Inv by lia.
    apply (tfm_c2d K t Ht); [|exact Hj]. intros l Hl. rewrite C; [reflexivity | exact Hr | cbn [reshape nc]; lia].
  - eapply meq_trans; [|exact Hrs]. apply HrawH. eapply meq_trans; [exact Es|].
    repeat split; cbn [add mul nr nc zmat]; [congruence | congruence|].
    intros r t R T. cbn [add mul el e sub nr nc zmat] in *.
    rewrite (bsum_ext K _ _ (fun k => el si0 r k * el z k t)); [ring|].
    intros k I. apply in_seq in I. f_equal. unfold zfun. rewrite <- Lz, firstn_all.
    assert (Zl : forall a b, (b < a < nroots)%nat -> nth (tril_index a b) xz s0 = el z a b - el z b a).
    { intros a b Hab. rewrite Ez. exact (tril_write s0 (fun a b => el z a b - el z b a) nroots a b Hab). }
    destruct (lt_eq_lt_dec t k) as [[L|L]|L].
    + replace (t <? k)%nat with true by (symmetry; apply Nat.ltb_lt; lia). replace (k <? t)%nat with false by (symmetry; apply Nat.ltb_ge; lia).
      rewrite Zl by lia. rewrite (Hz k t) by lia. transitivity (half * (el z k t + el z k t)); [ring | now apply halve].
    + subst t. rewrite Nat.ltb_irrefl. assert (Zk : el z k k = - el z k k) by (apply Hz; lia).
      transitivity (half * (s0 + s0)); [ring|]. rewrite <- (halve K half Hhalf (el z k k)). f_equal. rewrite Zk at 1. ring.
    + replace (t <? k)%nat with false by (symmetry; apply Nat.ltb_ge; lia). replace (k <? t)%nat with true by (symmetry; apply Nat.ltb_lt; lia).
      rewrite Zl by lia. rewrite (Hz k t) by lia. transitivity (half * (el z k t + el z k t)); [ring | now apply halve].
Qed.

(** ** the number of variables *)
Definition same_shapes : Prop := forall i a s, shape K (ci0 (KCh i a s 1)) = shape K (ci0 (KCh i a s 0)).
Lemma sumN_app l m : sumN (l ++ m) = (sumN l + sumN m)%nat.
Proof. apply UggProofs.sum_app. Qed.
Lemma filter_none {A} (f : A -> bool) l : (forall x, In x l -> f x = false) -> filter f l = [].
Proof. induction l as [|x l IH]; intros H; cbn; [reflexivity|]. rewrite H by (now left). apply IH. intros; apply H; now right. Qed.
Lemma filter_all {A} (f : A -> bool) l : (forall x, In x l -> f x = true) -> filter f l = l.
Proof. induction l as [|x l IH]; intros H; cbn; [reflexivity|]. rewrite H by (now left). f_equal. apply IH. intros; apply H; now right. Qed.
Definition k1 := map KRef (seq 0 nfrags).
Definition k2 := flat_map (fun i => map (KSf i) (seq 0 2)) (seq 0 nfrags).
Definition k3 := flat_map (fun i => flat_map (fun a => flat_map (fun s => map (KCh i a s) (seq 0 2)) (seq 0 4)) (seq 0 nfrags)) (seq 0 nfrags).
Lemma in_k1 k : In k k1 -> exists i, k = KRef i /\ (i < nfrags)%nat.
Proof. intros I. apply in_map_iff in I. destruct I as (i & <- & I). apply in_seq in I. exists i. split; [reflexivity | lia]. Qed.
Lemma in_k2 k : In k k2 -> exists i s, k = KSf i s.
Proof. intros I. apply in_flat_map in I. destruct I as (i & _ & I). apply in_map_iff in I. destruct I as (s & <- & _). eauto. Qed.
Lemma in_k3 k : In k k3 -> exists i a s p, k = KCh i a s p /\ (p < 2)%nat.
Proof.
  intros I. apply in_flat_map in I. destruct I as (i & _ & I). apply in_flat_map in I. destruct I as (a & _ & I).
  apply in_flat_map in I. destruct I as (s & _ & I). apply in_map_iff in I. destruct I as (p & <- & J). apply in_seq in J. exists i, a, s, p. split; [reflexivity | lia].
Qed.
Lemma filters : filter is_sf (keys nfrags) = k2 /\ filter is_ch (keys nfrags) = k3.
Proof.
  change (keys nfrags) with (k1 ++ k2 ++ k3). rewrite !filter_app.
  rewrite (filter_none is_sf k1), (filter_all is_sf k2), (filter_none is_sf k3), (filter_none is_ch k1), (filter_none is_ch k2), (filter_all is_ch k3), app_nil_r;
  [split; reflexivity | intros k I ..];
  first [apply in_k1 in I; destruct I as (? & -> & _); reflexivity
        | apply in_k2 in I; destruct I as (? & ? & ->); reflexivity
        | apply in_k3 in I; destruct I as (? & ? & ? & ? & -> & _); reflexivity].
Qed.
Lemma sum_sizes l : (forall k, In k l -> match k with KRef _ => False | _ => True end) ->
  (forall k c0, In k l -> ci0 k = Some c0 -> (nr c0 <= nc c0)%nat) ->
  (forall k, In k l -> ncsf_of K ci0 k = shape K (ci0 k)) ->
  sum_ncsf (map (ncsf_of K ci0) l) = sumN (map bsize l).
Proof.
  intros Hr Hn Hs. unfold sum_ncsf. rewrite map_map. f_equal. apply map_ext_in. intros k I.
  unfold LsisPack.bsize, LsisModel.active. pose proof (Hr k I) as Hk. pose proof (Hn k) as Hn'. rewrite (Hs k I).
  destruct (ci0 k) as [c0|] eqn:E; cbn [shape fst snd]; [|reflexivity].
  specialize (Hn' c0 I eq_refl).
  destruct k as [i|i s|i a s p]; [contradiction| |];
    (destruct (Nat.eqb_spec (nr c0) (nc c0)); destruct (Nat.ltb_spec (nr c0) (nc c0)); lia).
Qed.
Hypothesis Href : forall i, (i < nfrags)%nat -> exists c0, ci0 (KRef i) = Some c0 /\ nr c0 = 1%nat.
Hypothesis Hle : forall k c0, In k (keys nfrags) -> ci0 k = Some c0 -> (nr c0 <= nc c0)%nat.
Lemma lens_eq : same_shapes -> lens K nfrags nmo idx transformer ci0 north nroots =
  [nvar_orb nmo idx; sumN (map bsize k1); sumN (map bsize k2); sumN (map bsize k3); nz nroots; (north * nroots)%nat].
Proof.
  intros Hsame. destruct filters as [F2 F3].
  assert (L1 : sumN (map (ncsf_ref K transformer) (seq 0 nfrags)) = sumN (map bsize k1)).
  { unfold k1. rewrite map_map. f_equal. apply map_ext_in. intros i I. apply in_seq in I.
    destruct (Href i ltac:(lia)) as (c0 & E0 & R). destruct (Hci0 (KRef i) c0) as (t & Et & _ & Hn); [apply in_keys; lia | exact E0|].
    unfold ncsf_ref, LsisPack.bsize, LsisModel.active. rewrite E0, Et, R, Hn. lia. }
  assert (L2 : sum_ncsf (map (ncsf_of K ci0) k2) = sumN (map bsize k2)).
  { apply sum_sizes.
    - intros k I. apply in_k2 in I. destruct I as (? & ? & ->). exact I.
    - intros k c0 I. apply Hle. change (keys nfrags) with (k1 ++ k2 ++ k3). rewrite !in_app_iff. auto.
    - intros k I. apply in_k2 in I. destruct I as (? & ? & ->). reflexivity. }
  assert (L3 : sum_ncsf (map (ncsf_of K ci0) k3) = sumN (map bsize k3)).
  { apply sum_sizes.
    - intros k I. apply in_k3 in I. destruct I as (? & ? & ? & ? & -> & _). exact I.
    - intros k c0 I. apply Hle. change (keys nfrags) with (k1 ++ k2 ++ k3). rewrite !in_app_iff. auto.
    - intros k I. apply in_k3 in I. destruct I as (i & a & s & p & -> & Hp). cbn [ncsf_of].
      destruct p as [|[|p]]; [reflexivity | symmetry; apply Hsame | lia]. }
  unfold lens. now rewrite F2, F3, L1, L2, L3.
Qed.
Lemma F2_length {A B} (P : A -> B -> Prop) l m : Forall2 P l m -> length l = length m.
Proof. induction 1; cbn; congruence. Qed.
(** the six parts of a packed vector *)
Lemma offsets_cut (parts : list (list K)) : forall y,
  map (fun o => firstn (snd o - fst o) (skipn (fst o) (y ++ concat parts)))
    (map (fun n => (length y + sumN (firstn n (map (@length K) parts)), length y + sumN (firstn (S n) (map (@length K) parts))))%nat (seq 0 (length parts))) = parts.
Proof.
  induction parts as [|x parts IH]; intros y; [reflexivity|].
  cbn [length seq map fst snd firstn sumN fold_right concat]. rewrite <- seq_shift, !map_map. f_equal.
  - replace (length y + 0)%nat with (length y) by lia. rewrite skipn_app, skipn_all, Nat.sub_diag. cbn [skipn app]. replace (length y + (length x + 0) - length y)%nat with (length x) by lia.
    rewrite firstn_app, firstn_all, Nat.sub_diag. cbn [firstn]. apply app_nil_r.
  - rewrite <- (IH (y ++ x)) at 2. rewrite map_map. apply map_ext. intros n. cbn [fst snd firstn map sumN fold_right]. rewrite <- app_assoc, app_length, <- !Nat.add_assoc.
    reflexivity.
Qed.
Lemma pieces : same_shapes -> forall kappa ci si, shapes ci -> nr (raw2orth si) = north -> nc (raw2orth si) = nroots ->
  exists b1 b2 b3 xz e, let parts := [map (fun pq => half * (kappa (fst pq) (snd pq) - kappa (snd pq) (fst pq))) (positions nmo idx); concat b1; concat b2; concat b3; xz; e] in
    pack kappa ci si = Ok (concat parts) /\
    Forall2 (fun k b => pack_block K transformer ci0 ci k = Ok b) k1 b1 /\ Forall2 (fun k b => pack_block K transformer ci0 ci k = Ok b) k2 b2 /\
    Forall2 (fun k b => pack_block K transformer ci0 ci k = Ok b) k3 b3 /\
    xz = map (fun rs => el (adj_mul K si0 (raw2orth si)) (fst rs) (snd rs) - el (adj_mul K si0 (raw2orth si)) (snd rs) (fst rs)) (tril nroots) /\
    e = ravel K (sub K (raw2orth si) (mul K si0 (adj_mul K si0 (raw2orth si)))) /\
    map (@length K) parts = [nvar_orb nmo idx; sumN (map bsize k1); sumN (map bsize k2); sumN (map bsize k3); nz nroots; (north * nroots)%nat] /\
    map (fun o => firstn (snd o - fst o) (skipn (fst o) (concat parts))) (get_sector_offsets K nfrags nmo idx transformer ci0 north nroots) = parts.
Proof.
  intros Hsame kappa ci si Sh R C.
  destruct (pack_blocks K nfrags transformer ci0 Hci0 Hon ci Sh) as (bs & Em & G & F).
  destruct (pack_parts K half nfrags nmo idx transformer ci0 nroots si0 raw2orth kappa ci si bs Em) as (xz & Ep & Ez).
  change (keys nfrags) with (k1 ++ k2 ++ k3) in F, G.
  assert (Hsz : Forall2 (fun k b => length b = bsize k) (k1 ++ k2 ++ k3) bs).
  { clear -G. induction G; constructor; auto. now apply tangent_size. }
  apply Forall2_app_inv_l in F. destruct F as (b1 & b' & G1 & F & ->).
  apply Forall2_app_inv_l in F. destruct F as (b2 & b3 & G2 & G3 & ->).
  pose proof (F2_length _ _ _ G1) as N1. pose proof (F2_length _ _ _ G2) as N2.
  apply Forall2_app_inv_l in Hsz. destruct Hsz as (c1 & c' & S1 & Hsz & Ec).
  apply Forall2_app_inv_l in Hsz. destruct Hsz as (c2 & c3 & S2 & S3 & ->).
  pose proof (F2_length _ _ _ S1) as M1. pose proof (F2_length _ _ _ S2) as M2.
  assert (X : forall (A : Type) (a b c d : list A), a ++ b = c ++ d -> length a = length c -> a = c /\ b = d).
  { clear. intros A. induction a as [|x a IH]; intros b [|y c] d E L; try discriminate; [auto|]. cbn in E, L. injection E as -> E.
    destruct (IH b c d E) as [-> ->]; [lia | auto]. }
  destruct (X _ _ _ _ _ Ec) as [<- Ec']; [lia|]. destruct (X _ _ _ _ _ Ec') as [<- <-]; [lia|].
  exists b1, b2, b3, xz, (ravel K (sub K (raw2orth si) (mul K si0 (adj_mul K si0 (raw2orth si))))). cbv zeta.
  match goal with |- pack _ _ _ = Ok (concat ?p) /\ _ => set (parts := p) end.
  assert (L : map (@length K) parts = [nvar_orb nmo idx; sumN (map bsize k1); sumN (map bsize k2); sumN (map bsize k3); nz nroots; (north * nroots)%nat]).
  { subst parts. cbn [map]. rewrite (concat_sizes K ci0 k1 b1 S1), (concat_sizes K ci0 k2 b2 S2), (concat_sizes K ci0 k3 b3 S3), Ez, !map_length, tril_length.
    rewrite ravel_length. cbn [sub nr nc]. rewrite R, C. reflexivity. }
  split. { rewrite Ep. unfold parts. cbn [concat]. rewrite !concat_app, <- !app_assoc, app_nil_r. reflexivity. }
  split; [exact G1|]. split; [exact G2|]. split; [exact G3|]. split; [exact Ez|]. split; [reflexivity|]. split; [exact L|].
  unfold get_sector_offsets. rewrite (lens_eq Hsame), <- L. exact (offsets_cut parts []).
Qed.
(** If both ends of each charge transfer have vectors of the same shape, pack returns nvar_tot
    variables, divided as get_sector_offsets says. *)
Theorem C60_nvar : same_shapes ->
  nvar_tot K nfrags nmo idx transformer ci0 north nroots = total /\
  forall kappa ci si, shapes ci -> nr (raw2orth si) = north -> nc (raw2orth si) = nroots ->
  exists parts, pack kappa ci si = Ok (concat parts) /\ map (@length K) parts = lens K nfrags nmo idx transformer ci0 north nroots.
Proof.
  intros Hsame. rewrite (lens_eq Hsame). split.
  - unfold nvar_tot. rewrite (lens_eq Hsame). unfold LsisPack.total, nblocks.
    change (keys nfrags) with (k1 ++ k2 ++ k3). rewrite !map_app, !sumN_app. cbn [sumN fold_right]. lia.
  - intros kappa ci si Sh R C. destruct (pieces Hsame kappa ci si Sh R C) as (b1 & b2 & b3 & xz & e & E & _ & _ & _ & _ & _ & L & _).
    eexists. split; [exact E | exact L].
Qed.
(** [get_sector_offsets] cuts a packed vector into six pieces which together are the whole vector, and of which the first
    depends on the orbital rotation alone, the next three on the CI vectors of the references, the spin flips and the charge
    transfers, the last two on the state-interaction vectors. *)
Definition sectors (x : list K) : list (list K) :=
  map (fun o => firstn (snd o - fst o) (skipn (fst o) x)) (get_sector_offsets K nfrags nmo idx transformer ci0 north nroots).
Definition sector (n : nat) (x : list K) : list K := nth n (sectors x) [].
Theorem C60_sectors : same_shapes -> forall kappa ci si kappa' ci' si', shapes ci -> shapes ci' ->
  nr (raw2orth si) = north -> nc (raw2orth si) = nroots -> nr (raw2orth si') = north -> nc (raw2orth si') = nroots ->
  exists x x', pack kappa ci si = Ok x /\ pack kappa' ci' si' = Ok x' /\ concat (sectors x) = x /\ concat (sectors x') = x' /\
    ((forall p q, kappa p q = kappa' p q) -> sector 0 x = sector 0 x') /\
    ((forall i, ci (KRef i) = ci' (KRef i)) -> sector 1 x = sector 1 x') /\
    ((forall i s, ci (KSf i s) = ci' (KSf i s)) -> sector 2 x = sector 2 x') /\
    ((forall i a s p, ci (KCh i a s p) = ci' (KCh i a s p)) -> sector 3 x = sector 3 x') /\
    (si = si' -> sector 4 x = sector 4 x' /\ sector 5 x = sector 5 x').
Proof.
  intros Hsame kappa ci si kappa' ci' si' Sh Sh' R C R' C'.
  destruct (pieces Hsame kappa ci si Sh R C) as (b1 & b2 & b3 & xz & e & E & G1 & G2 & G3 & Ez & Ee & _ & S).
  destruct (pieces Hsame kappa' ci' si' Sh' R' C') as (c1 & c2 & c3 & xz' & e' & E' & G1' & G2' & G3' & Ez' & Ee' & _ & S').
  eexists. eexists. split; [exact E|]. split; [exact E'|]. unfold sector, sectors. rewrite S, S'. cbn [nth].
  assert (X : forall l b b', Forall2 (fun k b => pack_block K transformer ci0 ci k = Ok b) l b -> Forall2 (fun k b => pack_block K transformer ci0 ci' k = Ok b) l b' ->
    (forall k, In k l -> ci k = ci' k) -> b = b').
  { clear. intros l b b' F. revert b'. induction F as [|k x l b Hx F IH]; intros b' F' H; inversion F' as [|k' x' l' m Hx' F'']; subst; [reflexivity|].
    f_equal; [|apply IH; [assumption | intros; apply H; now right]]. unfold LsisModel.pack_block in *. rewrite <- (H k) in Hx' by now left. congruence. }
  split; [reflexivity|]. split; [reflexivity|]. repeat split.
  - intros H. apply map_ext. intros pq. now rewrite !H.
  - intros H. f_equal. apply (X k1); auto. intros k I. apply in_k1 in I. destruct I as (i & -> & _). apply H.
  - intros H. f_equal. apply (X k2); auto. intros k I. apply in_k2 in I. destruct I as (i & s & ->). apply H.
  - intros H. f_equal. apply (X k3); auto. intros k I. apply in_k3 in I. destruct I as (i & a' & s & p & -> & _). apply H.
  - subst. reflexivity.
  - subst. reflexivity.
Qed.
End T.

(** ** Examples and counterexamples *)
Definition Qs : star_ring := mkStar Qc (Q2Qc 0) (Q2Qc 1) Qcplus Qcmult Qcminus Qcopp Qcrt (fun x => x)
  (fun _ _ => eq_refl) (fun _ _ => eq_refl) (fun _ => eq_refl).
Module Ex.
Open Scope Q_scope.
Notation q := Q2Qc.
Definition half : Qs := q (1 # 2).
Definition row (l : list Q) : mat Qs := @mkMat Qs 1 (length l) (fun _ j => q (nth j l 0)).
Definition idt (n : nat) : tfm Qs := @mkTfm Qs n n (fun v => v) (fun v => v).
Lemma idt_ok n : tfm_ok Qs (idt n).
Proof. split; cbn; auto. Qed.
(** the singlet of two determinants *)
Definition single : tfm Qs :=
  @mkTfm Qs 1 2 (fun v _ => Qcmult half (Qcplus (v 0%nat) (v 1%nat))) (fun v _ => v 0%nat).
Lemma single_ok : tfm_ok Qs single.
Proof.
  split; cbn [single tncsf tndet d2c c2d].
  - intros c j H. assert (j = 0)%nat as -> by lia. unfold half. change (Qcmult (q (1 # 2)) (Qcplus (c 0%nat) (c 0%nat)) = c 0%nat).
    replace (Qcplus (c 0%nat) (c 0%nat)) with (Qcmult (q 2) (c 0%nat)).
    + rewrite Qcmult_assoc. replace (Qcmult (q (1 # 2)) (q 2)) with (q 1) by (apply Qc_is_canon; vm_compute; reflexivity). apply Qcmult_1_l.
    + replace (q 2) with (Qcplus (q 1) (q 1)) by (apply Qc_is_canon; vm_compute; reflexivity). change (q 1) with 1%Qc. ring.
  - intros u v j H _. now rewrite (H 0%nat), (H 1%nat) by lia.
  - intros u v j H _. apply H. lia.
Qed.
Definition tf1 (k : key) : option (tfm Qs) := Some (match k with KSf 1 0 => single | _ => idt 2 end).
Definition c1 (k : key) : option (mat Qs) :=
  match k with
  | KRef _ => Some (row [1; 0])
  | KSf 0 0 => Some (row [3 # 5; 4 # 5])
  | KSf 1 0 => Some (row [1])
  | KCh 0 1 0 0 => Some (row [0; 1])
  | KCh 0 1 0 1 => Some (row [1; 0])
  | _ => None
  end.
Definition s1 : mat Qs := @mkMat Qs 3 2 (fun o r => q (if (o =? r)%nat then 1 else 0)).
Definition id_ (m : mat Qs) := m.
Definition mask (p r : nat) : bool := ((p =? 1) && (r =? 0))%nat.
Definition packE := pack Qs half 2 2 mask tf1 c1 2 s1 id_.
Definition unpackE := unpack Qs half 2 2 mask tf1 c1 3 2 s1 id_.
Definition vals (l : list Qs) : list Q := map (fun x : Qc => this x) l.
Definition back (x : list Q) : option (list Q) :=
  match unpackE (map q x) with
  | Ok (kappa, ci, si) => match packE kappa ci si with Ok y => Some (vals y) | Raise _ => None end
  | Raise _ => None
  end.
Example ex_total : total Qs 2 2 mask c1 3 2 = 18%nat /\ nvar_tot Qs 2 2 mask tf1 c1 3 2 = 18%nat /\
  get_sector_offsets Qs 2 2 mask tf1 c1 3 2 = [(0, 1); (1, 5); (5, 7); (7, 11); (11, 12); (12, 18)]%nat.
Proof. vm_compute. auto. Qed.
(** a tangent vector comes back; another one is projected, and then stays *)
Example ex_tangent : back [5; 0; 1; 0; 2; 4; -3; 7; 0; 0; 8; 9; 0; 0; 0; 0; 10; 11]
  = Some [5; 0; 1; 0; 2; 4; -3; 7; 0; 0; 8; 9; 0; 0; 0; 0; 10; 11].
Proof. vm_compute. reflexivity. Qed.
Example ex_projected : back [1; 1; 1; 1; 1; 1; 1; 1; 1; 1; 1; 1; 1; 1; 1; 1; 1; 1]
  = Some [1; 0; 1; 0; 1; 4 # 25; -3 # 25; 1; 0; 0; 1; 1; 0; 0; 0; 0; 1; 1] /\
  back [1; 0; 1; 0; 1; 4 # 25; -3 # 25; 1; 0; 0; 1; 1; 0; 0; 0; 0; 1; 1]
  = Some [1; 0; 1; 0; 1; 4 # 25; -3 # 25; 1; 0; 0; 1; 1; 0; 0; 0; 0; 1; 1].
Proof. vm_compute. auto. Qed.
Example ex_long : unpackE (map q (repeat 0 19)) = Raise ValueError.
Proof. vm_compute. reflexivity. Qed.
(** four orbitals with 3 up and 1 down, 2 up and 2 down; two orbitals with 2 up and 1 down *)
Example ex_tables : t_sf_arg 4 3 1 3 0 = Some (4, 2, 2, 1)%Z /\ t_sf_arg 4 3 1 3 1 = Some (4, 4, 0, 5)%Z /\
  t_ch_i_arg 4 2 2 1 0 = None /\ t_ch_i_arg 4 2 2 1 1 = Some (4, 2, 1, 2)%Z /\ t_ch_a_arg 2 2 1 2 0 = Some (2, 2, 2, 1)%Z /\ t_ch_a_arg 2 2 1 2 1 = None.
Proof. vm_compute. repeat split. Qed.

(** one charge transfer from fragment 0 to fragment 1; its ends have [l0] and [l1] *)
Definition c2 (l0 l1 : list Q) (k : key) : option (mat Qs) :=
  match k with
  | KRef _ => Some (row [1; 0])
  | KCh 0 1 0 0 => Some (row l0)
  | KCh 0 1 0 1 => Some (row l1)
  | _ => None
  end.
Definition tf2 (n0 n1 : nat) (k : key) : option (tfm Qs) :=
  Some (match k with KCh _ _ _ 0 => idt n0 | KCh _ _ _ _ => idt n1 | _ => idt 2 end).
Definition s2 : mat Qs := @mkMat Qs 1 1 (fun _ _ => q 1).
Definition none (p r : nat) : bool := false.
Definition reasonable (transformer : key -> option (tfm Qs)) (ci0 : key -> option (mat Qs)) : Prop :=
  (forall k c0, In k (keys 2) -> ci0 k = Some c0 ->
     (exists t, transformer k = Some t /\ tfm_ok Qs t /\ nc c0 = tncsf t) /\ orthonormal Qs c0 /\ (nr c0 <= nc c0)%nat) /\
  (forall i, (i < 2)%nat -> exists c0, ci0 (KRef i) = Some c0 /\ nr c0 = 1%nat).
Lemma row_on l : Qeq (fold_right (fun x s => x * x + s) 0 l) 1 -> orthonormal Qs (row l).
Proof.
  intros H k m Hk Hm. cbn [row nr] in Hk, Hm. assert (k = 0 /\ m = 0)%nat as [-> ->] by lia. cbn [Nat.eqb].
  unfold ip, row. cbn [nc el].
  assert (G : forall l' (f : nat -> Q) a, bsum (K := Qs) (seq a (length l')) (fun j => Qcmult (q (nth (j - a) l' 0)) (q (nth (j - a) l' 0))) = q (fold_right (fun x s => x * x + s) 0 l')).
  { induction l' as [|x l' IH]; intros f a; [reflexivity|]. cbn [length seq bsum fold_right].
    rewrite (bsum_ext Qs _ _ (fun j => Qcmult (q (nth (j - S a) l' 0)) (q (nth (j - S a) l' 0)))).
    2:{ intros j I. apply in_seq in I. replace (j - a)%nat with (S (j - S a)) by lia. reflexivity. }
    rewrite (IH f (S a)), Nat.sub_diag. cbn [nth]. change (Qcplus (Qcmult (q x) (q x)) (q (fold_right (fun x s => x * x + s) 0 l')) = q (x * x + fold_right (fun x s => x * x + s) 0 l')).
    apply Qc_is_canon. cbn [Qcplus Qcmult Q2Qc this]. rewrite !Qred_correct. reflexivity. }
  transitivity (q (fold_right (fun x s => x * x + s) 0 l)).
  - rewrite <- (G l (fun _ => 0) 0%nat). apply (bsum_ext Qs). intros j _. rewrite Nat.sub_0_r. reflexivity.
  - apply Qc_is_canon. cbn [Q2Qc this]. rewrite !Qred_correct. exact H.
Qed.
Lemma c2_ok l0 l1 : Qeq (fold_right (fun x s => x * x + s) 0 l0) 1 -> Qeq (fold_right (fun x s => x * x + s) 0 l1) 1 ->
  (1 <= length l0)%nat -> (1 <= length l1)%nat -> reasonable (tf2 (length l0) (length l1)) (c2 l0 l1).
Proof.
  intros N0 N1 L0 L1. split.
  - intros k c0 _ E. destruct k as [i|i s|i a s p]; cbn [c2] in E.
    + injection E as <-. split; [exists (idt 2); split; [reflexivity | split; [apply idt_ok | reflexivity]]|]. split; [apply row_on; reflexivity | cbn; lia].
    + discriminate.
    + destruct i as [|i]; [|discriminate]. destruct a as [|[|a]]; try discriminate. destruct s as [|s]; [|discriminate].
      destruct p as [|[|p]]; [| |discriminate]; injection E as <-.
      * split; [exists (idt (length l0)); split; [reflexivity | split; [apply idt_ok | reflexivity]]|]. split; [apply row_on; exact N0 | cbn; lia].
      * split; [exists (idt (length l1)); split; [reflexivity | split; [apply idt_ok | reflexivity]]|]. split; [apply row_on; exact N1 | cbn; lia].
  - intros i _. exists (row [1; 0]). split; reflexivity.
Qed.
End Ex.

(** FINDING: ncsf_ch gives both ends of a charge transfer the shape of the first.  If they differ, nvar_tot is
    not the length of packed vectors, and unpack raises on a vector of nvar_tot elements. *)
Theorem C60_nvar_refuted : exists transformer ci0, Ex.reasonable transformer ci0 /\
  nvar_tot Qs 2 1 Ex.none transformer ci0 1 1 <> total Qs 2 1 Ex.none ci0 1 1 /\
  unpack Qs Ex.half 2 1 Ex.none transformer ci0 1 1 Ex.s2 Ex.id_ (repeat s0 (nvar_tot Qs 2 1 Ex.none transformer ci0 1 1)) = Raise ValueError.
Proof.
  exists (Ex.tf2 2 3), (Ex.c2 [1; 0] [1; 0; 0])%Q. split; [|split].
  - apply (Ex.c2_ok [1; 0] [1; 0; 0])%Q; [reflexivity | reflexivity | cbn; lia | cbn; lia].
  - vm_compute. discriminate.
  - vm_compute. reflexivity.
Qed.
(** FINDING: if the vectors of the first end span their space, the variables of the second end are left out,
    though its vectors do not: two different tangent directions of it are packed alike. *)
Theorem C60_second_end_refuted : exists transformer ci0 k c0 t kappa ci ci' c c' si x, Ex.reasonable transformer ci0 /\
  In k (keys 2) /\ ci0 k = Some c0 /\ (nr c0 < nc c0)%nat /\ transformer k = Some t /\
  (forall k', k' <> k -> ci k' = ci' k') /\ ci k = Some c /\ ci' k = Some c' /\
  perp Qs c0 (vec_det2csf Qs t c) /\ perp Qs c0 (vec_det2csf Qs t c') /\ nr c = nr c0 /\ nr c' = nr c0 /\ ~ meq Qs c c' /\
  pack Qs Ex.half 2 1 Ex.none transformer ci0 1 Ex.s2 Ex.id_ kappa ci si = Ok x /\
  pack Qs Ex.half 2 1 Ex.none transformer ci0 1 Ex.s2 Ex.id_ kappa ci' si = Ok x.
Proof.
  exists (Ex.tf2 1 2), (Ex.c2 [1] [1; 0])%Q, (KCh 0 1 0 1), (Ex.row [1; 0])%Q, (Ex.idt 2), (fun _ _ => s0),
    (Ex.c2 [0] [0; 1])%Q, (Ex.c2 [0] [0; 2])%Q, (Ex.row [0; 1])%Q, (Ex.row [0; 2])%Q, Ex.s2.
  assert (P : forall b, perp Qs (Ex.row [1; 0])%Q (vec_det2csf Qs (Ex.idt 2) (Ex.row [0; b])%Q)).
  { intros b r k R Kk. cbn in R, Kk. assert (k = 0)%nat as -> by lia. unfold ip.
    cbn [vec_det2csf Ex.idt Ex.row tncsf d2c nc el length seq bsum nth]. cbv [s0 Qs sadd smul sconj].
    assert (G : forall x : Qc, (0 * 1 + (x * 0 + 0) = 0)%Qc) by (intros x; ring). apply G. }
  eexists. split.
  - apply (Ex.c2_ok [1] [1; 0])%Q; [reflexivity | reflexivity | cbn; lia | cbn; lia].
  - split; [apply in_keys; lia|]. split; [reflexivity|]. split; [cbn; lia|]. split; [reflexivity|].
    split. { intros k' N. destruct k' as [i|i s|[|i] [|[|a]] [|s] [|[|p]]]; try reflexivity. contradiction. }
    split; [reflexivity|]. split; [reflexivity|]. split; [apply P|]. split; [apply P|].
    split; [reflexivity|]. split; [reflexivity|].
    split; [|split; reflexivity].
    intros (_ & _ & C). specialize (C 0%nat 1%nat ltac:(cbn; lia) ltac:(cbn; lia)). apply (f_equal (fun x : Qc => this x)) in C. vm_compute in C. discriminate.
Qed.

(** ** the step *)
Open Scope R_scope.
(** Each updated vector has norm 1, up to an error below 1e-16 for steps shorter than 1e-8. *)
Theorem C60_update_norm : forall (ci0 dci : rmat) r, (r < nr ci0)%nat -> nr dci = nr ci0 -> nc dci = nc ci0 -> orthonormal Rs ci0 ->
  1 <= norm2 (update_rows ci0 dci) r <= 1 + / 10 ^ 16 /\
  (phi (remove Rs ci0 dci) r = 0 \/ / 10 ^ 8 < phi (remove Rs ci0 dci) r -> norm2 (update_rows ci0 dci) r = 1).
Proof.
  intros ci0 dci r R Hr Hc Ho. rewrite update_norm by assumption.
  pose proof (unit_close (phi (remove Rs ci0 dci) r) (phi_nonneg _ _)) as [A B].
  assert (T : thr * thr = / 10 ^ 16) by (unfold thr; rewrite <- Rinv_mult; f_equal; ring). rewrite T in A. split; [exact A | exact B].
Qed.
(** The step starts at the present vectors, in the direction of the variables. *)
Theorem C60_update_first_order : forall (ci0 d : rmat) r j,
  (forall z : rmat, (forall r j, el z r j = 0) -> el (update_rows ci0 z) r j = el ci0 r j) /\
  derivable_pt_lim (fun t => el (update_rows ci0 (scale t d)) r j) 0 (el (remove Rs ci0 d) r j).
Proof. intros ci0 d r j. split; [intros z Z; now apply update_zero | apply update_first_order]. Qed.

(** vectors of CI coefficients of one state, as two-dimensional arrays; si vectors *)
Definition total2 (m : rmat) : R := bsum (K := Rs) (seq 0 (nr m)) (fun r => bsum (K := Rs) (seq 0 (nc m)) (fun j => el m r j * el m r j)).
Definition overlap2 (m m' : rmat) : R := bsum (K := Rs) (seq 0 (nr m)) (fun r => bsum (K := Rs) (seq 0 (nc m)) (fun j => el m' r j * el m r j)).
Lemma bsum_nth (y : list R) (f : R -> R) : bsum (K := Rs) (seq 0 (length y)) (fun j => f (nth j y 0)) = bsum (K := Rs) y f.
Proof.
  rewrite <- (bsum_map Rs (fun j => nth j y 0) (seq 0 (length y)) f). f_equal.
  rewrite (map_nth_seq 0 (length y) y) by apply le_n. apply firstn_all.
Qed.
Lemma total2_ravel m : total2 m = bsum (K := Rs) (ravel Rs m) (fun x => x * x).
Proof. unfold ravel. rewrite (bsum_flat_map Rs). apply (bsum_ext Rs). intros r _. now rewrite (bsum_map Rs). Qed.
Lemma total2_flat m : norm2 (rows (A2 m)) 0 = total2 m.
Proof.
  rewrite total2_ravel. unfold norm2. cbn [rows reshape nc el Nat.mul Nat.add]. rewrite <- ravel_length.
  exact (bsum_nth (ravel Rs m) (fun x => x * x)).
Qed.
Lemma overlap_flat m m' : nr m = nr m' -> nc m = nc m' -> ip Rs (rows (A2 m')) 0 (rows (A2 m)) 0 = overlap2 m m'.
Proof.
  intros E1 E2. unfold ip, overlap2. cbn [rows reshape nc el Nat.mul Nat.add].
  assert (G : forall n a c f g, bsum (K := Rs) (seq 0 (n * c)) (fun l => nth l (flat_map (fun r => map (f r) (seq 0 c)) (seq a n)) 0 * nth l (flat_map (fun r => map (g r) (seq 0 c)) (seq a n)) 0)
     = bsum (K := Rs) (seq a n) (fun r => bsum (K := Rs) (seq 0 c) (fun j => f r j * g r j))).
  { clear. induction n as [|n IH]; intros a c f g; [reflexivity|]. cbn [Nat.mul seq flat_map bsum].
    rewrite seq_app, (bsum_app Rs). cbn [Nat.add]. f_equal.
    - apply (bsum_ext Rs). intros j I. apply in_seq in I. rewrite !app_nth1 by (rewrite map_length, seq_length; lia).
      rewrite (nth_indep _ 0 (f a 0%nat)) by (rewrite map_length, seq_length; lia). rewrite (map_nth (f a)).
      rewrite (nth_indep _ 0 (g a 0%nat)) by (rewrite map_length, seq_length; lia). rewrite (map_nth (g a)). now rewrite seq_nth by lia.
    - rewrite (seq_shift_map c (n * c)), (bsum_map Rs), <- IH. apply (bsum_ext Rs). intros j _.
      rewrite !app_nth2 by (rewrite map_length, seq_length; lia). rewrite !map_length, !seq_length. now replace (c + j - c)%nat with j by lia. }
  unfold ravel. rewrite <- E1, <- E2. exact (G (nr m) 0%nat (nc m) (el m') (el m)).
Qed.
Lemma flat_norm (m d : rmat) : nr d = nr m -> nc d = nc m -> overlap2 m d = 0 ->
  norm2 (update_rows (rows (A2 m)) (rows (A2 d))) 0 =
  total2 m * (cos (sqrt (total2 d)) * cos (sqrt (total2 d))) + sinp (sqrt (total2 d)) * sinp (sqrt (total2 d)) * total2 d.
Proof.
  intros E1 E2 Z. set (f0 := rows (A2 m)). set (fd := rows (A2 d)).
  assert (P : perp Rs f0 fd).
  { intros r k R Kk. cbn in R, Kk. assert (r = 0 /\ k = 0)%nat as [-> ->] by lia. unfold f0, fd. rewrite overlap_flat by congruence. exact Z. }
  destruct (remove_perp_id Rs f0 fd P) as (A & B & C).
  assert (Ephi : phi (remove Rs f0 fd) 0 = sqrt (total2 d)).
  { unfold phi. f_equal. rewrite <- total2_flat. fold fd. unfold norm2. rewrite B. apply (bsum_ext Rs). intros j I. apply in_seq in I.
    rewrite (C 0%nat j); [reflexivity | rewrite A; apply Nat.lt_0_1 | rewrite B; lia]. }
  unfold norm2. unfold update_rows. cbn [nc el]. rewrite Ephi.
  set (c := cos _). set (s := sinp _).
  assert (Hn : nc fd = nc f0) by (unfold fd, f0; cbn [rows reshape nc]; now rewrite E1, E2).
  transitivity (c * c * norm2 f0 0 + 2 * c * s * ip Rs fd 0 f0 0 + s * s * norm2 fd 0).
  - unfold norm2, ip. rewrite Hn. rewrite <- rsum_comb. apply (bsum_ext Rs). intros j I. apply in_seq in I.
    rewrite (C 0%nat j); [reflexivity | rewrite A; apply Nat.lt_0_1 | rewrite B, Hn; lia].
  - rewrite (P 0%nat 0%nat) by (cbn; lia). unfold f0, fd. rewrite !total2_flat. rr.
Qed.
Lemma total2_reshape n c u : nr u = 1%nat -> nc u = (n * c)%nat -> total2 (reshape Rs n c (ravel Rs u)) = norm2 u 0.
Proof.
  intros R C. rewrite total2_ravel, ravel_reshape by (rewrite ravel_length, R, C; lia).
  rewrite <- total2_ravel. unfold total2. rewrite R. cbn [seq bsum]. unfold norm2. rr.
Qed.
Lemma total2_transpose m : total2 (transpose m) = total2 m.
Proof. unfold total2. cbn [transpose nr nc el]. apply (bsum_swap Rs). Qed.

(** A normalised two-dimensional array of CI coefficients stays normalised, within the same error. *)
Theorem C60_update_one_norm : forall (m d : rmat), nr d = nr m -> nc d = nc m -> total2 m = 1 ->
  exists m', update_civecs (A2 m) (A2 d) = A2 m' /\ nr m' = nr m /\ nc m' = nc m /\ 1 <= total2 m' <= 1 + / 10 ^ 16.
Proof.
  intros m d E1 E2 N. eexists. split; [reflexivity|]. split; [reflexivity|]. split; [reflexivity|].
  rewrite total2_reshape by reflexivity. apply C60_update_norm; [apply Nat.lt_0_1 | reflexivity | cbn [rows reshape nc]; now rewrite E1, E2|].
  intros k l Hk Hl. cbn in Hk, Hl. assert (k = 0 /\ l = 0)%nat as [-> ->] by lia. cbn [Nat.eqb].
  change (norm2 (rows (A2 m)) 0 = 1). now rewrite total2_flat.
Qed.

(** The sum of the squared norms of all si vectors after a step of length [s]: only for one root, or without a
    step, is it their number. *)
Theorem C60_update_si_norm : forall (si0 dsi : rmat), nr dsi = nr si0 -> nc dsi = nc si0 ->
  total2 si0 = INR (nc si0) -> overlap2 si0 dsi = 0 ->
  let s := sqrt (total2 dsi) in / 10 ^ 8 < s ->
  total2 (update_sivecs si0 dsi) = INR (nc si0) * (cos s * cos s) + sin s * sin s.
Proof.
  intros si0 dsi E1 E2 N Z s L. unfold update_sivecs, update_civecs. rewrite total2_transpose.
  rewrite total2_reshape; [|reflexivity|reflexivity].
  assert (T2 : total2 (transpose dsi) = total2 dsi) by apply total2_transpose.
  rewrite flat_norm; [|exact E2|exact E1|].
  - rewrite T2, (total2_transpose si0), N. fold s. f_equal.
    assert (Q : total2 dsi = s * s).
    { unfold s. rewrite sqrt_sqrt; [reflexivity|]. rewrite total2_ravel. apply rsum_nonneg. intros x _. apply Rle_0_sqr. }
    rewrite Q. apply sinp_sq. exact L.
  - rewrite <- Z. unfold overlap2. cbn [transpose nr nc el]. apply (bsum_swap Rs).
Qed.

(** FINDING: several vectors of one block are updated one by one, and do not stay orthogonal: *)
Definition e_rows : rmat := @mkMat Rs 2 3 (fun r j => if (r =? j)%nat then 1 else 0).
Definition to3 : rmat := @mkMat Rs 2 3 (fun r j => if (j =? 2)%nat then PI / 2 else 0).
Ltac small n := repeat (destruct n as [|n]; [|try lia]).
Theorem C60_update_rows_refuted : exists (ci0 dci : rmat), orthonormal Rs ci0 /\ perp Rs ci0 dci /\ nr ci0 = 2%nat /\
  ip Rs (update_rows ci0 dci) 0 (update_rows ci0 dci) 1 = 1.
Proof.
  exists e_rows, to3.
  assert (P : perp Rs e_rows to3).
  { intros r k R Kk. cbn in R, Kk. unfold ip. cbn [to3 nc el seq bsum Nat.eqb e_rows].
    destruct k as [|[|k]]; [| |lia]; cbn [Nat.eqb]; rr. }
  split; [|split; [exact P|split; [reflexivity|]]].
  - intros k l Hk Hl. cbn in Hk, Hl. unfold ip. cbn [e_rows nc el seq bsum].
    destruct k as [|[|k]]; [| |lia]; (destruct l as [|[|l]]; [| |lia]); cbn [Nat.eqb]; rr.
  - destruct (remove_perp_id Rs e_rows to3 P) as (_ & _ & C).
    assert (Pp : 0 < PI / 2) by (pose proof PI_RGT_0; lra).
    assert (Ph : forall r, (r < 2)%nat -> phi (remove Rs e_rows to3) r = PI / 2).
    { intros r Hr. unfold phi. transitivity (sqrt (Rsqr (PI / 2))); [|now apply sqrt_Rsqr; lra]. f_equal.
      change (nc (remove Rs e_rows to3)) with 3%nat. cbn [seq bsum].
      rewrite !C by (cbn; lia). cbn [to3 el Nat.eqb]. unfold Rsqr. rr. }
    assert (Sp : sinp (PI / 2) = / (PI / 2)).
    { unfold sinp. destruct (Rlt_dec thr (Rabs (PI / 2))) as [L|L].
      - rewrite sin_PI2. unfold Rdiv. ring.
      - exfalso. apply L. rewrite Rabs_pos_eq by lra. pose proof PI2_1. unfold thr. apply Rle_lt_trans with 1; [|exact H].
        rewrite <- Rinv_1. apply Rinv_le_contravar; [lra|]. simpl. lra. }
    assert (U : forall r j, (r < 2)%nat -> (j < 3)%nat -> el (update_rows e_rows to3) r j = if (j =? 2)%nat then 1 else 0).
    { intros r j Hr J. unfold update_rows. cbn [el]. rewrite (Ph r Hr), cos_PI2, Sp, C by (cbn; lia). cbn [to3 el].
      destruct (j =? 2)%nat.
      - assert (G : forall a : R, 0 * a + / (PI / 2) * (PI / 2) = 1) by (intros a; field; lra). apply G.
      - assert (G : forall a : R, 0 * a + / (PI / 2) * 0 = 0) by (intros a; ring). apply G. }
    unfold ip. change (nc (update_rows e_rows to3)) with 3%nat. cbn [seq bsum]. rewrite !U by lia. cbn [Nat.eqb]. rr.
Qed.

(** FINDING: the si vectors of all roots are treated as one long vector: after a step of one root the other can vanish. *)
Definition si_e : rmat := @mkMat Rs 3 2 (fun o r => if (o =? r)%nat then 1 else 0).
Definition si_d : rmat := @mkMat Rs 3 2 (fun o r => if ((o =? 2) && (r =? 0))%nat then PI / 2 else 0).
Theorem C60_update_si_refuted : exists (si0 dsi : rmat), nr si0 = 3%nat /\ nc si0 = 2%nat /\ orthonormal Rs (transpose si0) /\
  (forall r s, (r < 2)%nat -> (s < 2)%nat -> el (adj_mul Rs si0 dsi) r s = 0) /\
  (forall o, (o < 3)%nat -> el (update_sivecs si0 dsi) o 1 = 0).
Proof.
  exists si_e, si_d. split; [reflexivity|]. split; [reflexivity|]. split; [|split].
  - intros k l Hk Hl. cbn in Hk, Hl. unfold ip. cbn [transpose si_e nr nc el seq bsum].
    destruct k as [|[|k]]; [| |lia]; (destruct l as [|[|l]]; [| |lia]); cbn [Nat.eqb]; rr.
  - intros r s R S. cbn [adj_mul si_e si_d nr nc el seq bsum].
    destruct r as [|[|r]]; [| |lia]; (destruct s as [|[|s]]; [| |lia]); cbn [Nat.eqb andb]; rr.
  - intros o Ho. unfold update_sivecs, update_civecs. cbn [transpose el].
    set (m := transpose si_e). set (d := transpose si_d).
    set (u := update_rows (rows (A2 m)) (rows (A2 d))).
    assert (Er : el (reshape Rs (nr m) (nc m) (ravel Rs u)) 1 o = el u 0 (3 + o)).
    { cbn [reshape el m transpose si_e nr nc]. exact (ravel_nth Rs u 0 (3 + o) ltac:(cbn; lia) ltac:(cbn; lia)). }
    rewrite Er.
    assert (Pp : 0 < PI / 2) by (pose proof PI_RGT_0; lra).
    set (f0 := rows (A2 m)) in *. set (fd := rows (A2 d)) in *.
    assert (Ef0 : forall j, (j < 6)%nat -> el f0 0 j = nth j [1; 0; 0; 0; 1; 0] 0) by (intros j J; do 6 (destruct j as [|j]; [reflexivity|]); lia).
    assert (Efd : forall j, (j < 6)%nat -> el fd 0 j = nth j [0; 0; PI / 2; 0; 0; 0] 0) by (intros j J; do 6 (destruct j as [|j]; [reflexivity|]); lia).
    assert (P : perp Rs f0 fd).
    { intros r k Hr Hk. cbn in Hr, Hk. assert (r = 0 /\ k = 0)%nat as [-> ->] by lia. unfold ip. change (nc fd) with 6%nat. cbn [seq bsum].
      rewrite !Ef0, !Efd by lia. cbn [nth]. rr. }
    destruct (remove_perp_id Rs f0 fd P) as (_ & _ & C).
    assert (Ph : phi (remove Rs f0 fd) 0 = PI / 2).
    { unfold phi. transitivity (sqrt (Rsqr (PI / 2))); [|now apply sqrt_Rsqr; lra]. f_equal.
      change (nc (remove Rs f0 fd)) with 6%nat. cbn [seq bsum].
      rewrite !C by (cbn; lia). rewrite !Efd by lia. cbn [nth]. unfold Rsqr. rr. }
    unfold u, update_rows. cbn [el]. rewrite Ph, cos_PI2, C by (cbn; lia). rewrite Efd by lia.
    assert (G : forall a b : R, 0 * a + b * 0 = 0) by (intros; ring).
    destruct o as [|[|[|o]]]; [| | |lia]; cbn [Nat.add nth]; apply G.
Qed.

Print Assumptions C60_pack_unpack.
Print Assumptions C60_update_norm.
