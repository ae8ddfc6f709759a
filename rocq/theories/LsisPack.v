(** Round trips of the LASSIS variables. *)
From Coq Require Import List Arith ZArith Bool Lia Ring.
From Verif Require Import Base Star UggModel UggProofs LsisModel LsisProofs.
Import ListNotations.

Section P.
Variable K : star_ring.
Add Ring Kring3 : (sring K).
Local Open Scope star_scope.
Notation mat := (mat K).
Notation tfm := (tfm K).
Variable half : K.
Hypothesis Hhalf : half + half = s1.
Lemma halve (x : K) : half * (x + x) = x.
Proof. transitivity ((half + half) * x); [ring|]. rewrite Hhalf. ring. Qed.

(** What a CSF transformer obeys: it reads only its vector, and back and forth is the identity on CSFs. *)
Record tfm_ok (t : tfm) : Prop := mkTfmOk {
  tfm_inv : forall c j, (j < tncsf t)%nat -> d2c t (c2d t c) j = c j;
  tfm_d2c : forall u v j, (forall l, (l < tndet t)%nat -> u l = v l) -> (j < tncsf t)%nat -> d2c t u j = d2c t v j;
  tfm_c2d : forall u v j, (forall l, (l < tncsf t)%nat -> u l = v l) -> (j < tndet t)%nat -> c2d t u j = c2d t v j }.

Variables (nfrags nmo : nat) (idx : nat -> nat -> bool).
Hypothesis Hidx : forall p q, (p < nmo)%nat -> (q < nmo)%nat -> idx p q = true -> idx q p = false.
Variable transformer : key -> option tfm.
Variable ci0 : key -> option mat.
(** every block of reference vectors has its transformer, and one column per CSF *)
Hypothesis Hci0 : forall k c0, In k (keys nfrags) -> ci0 k = Some c0 ->
  exists t, transformer k = Some t /\ tfm_ok t /\ nc c0 = tncsf t.
Variables (north nroots : nat) (si0 : mat).
Hypothesis Hsi : nr si0 = north /\ nc si0 = nroots.
Variables (raw2orth raw2orthH : mat -> mat).
Hypothesis Hraw : forall s, nr s = north -> nc s = nroots -> meq K (raw2orth (raw2orthH s)) s.
Hypothesis HrawH : forall s s', meq K s s' -> meq K (raw2orthH s) (raw2orthH s').

Notation active := (active K ci0).
Notation pack_block := (pack_block K transformer ci0).
Notation pack := (pack K half nfrags nmo idx transformer ci0 nroots si0 raw2orth).
Notation unpack_blocks := (unpack_blocks K transformer ci0).
Notation unpack := (unpack K half nfrags nmo idx transformer ci0 north nroots si0 raw2orthH).
Notation nz := (nz nroots).
Notation ravel := (ravel K).
Notation reshape := (reshape K).

(** the number of variables of a block *)
Definition bsize (k : key) : nat :=
  if active k then match ci0 k with Some c0 => (nr c0 * nc c0)%nat | None => 0%nat end else 0%nat.
Definition nblocks : nat := sumN (map bsize (keys nfrags)).
Definition total : nat := (nvar_orb nmo idx + nblocks + nz + north * nroots)%nat.

Definition tangent_block (k : key) (b : list K) : Prop :=
  if active k then exists c0 m, ci0 k = Some c0 /\ b = ravel m /\ nr m = nr c0 /\ nc m = nc c0 /\ perp K c0 m
  else b = [].
Definition tangent (x : list K) : Prop :=
  exists xo bs xz e, x = xo ++ concat bs ++ xz ++ ravel e /\ length xo = nvar_orb nmo idx /\
    Forall2 tangent_block (keys nfrags) bs /\ length xz = nz /\ nr e = north /\ nc e = nroots /\
    (forall r s, (r < nroots)%nat -> (s < nroots)%nat -> el (adj_mul K si0 e) r s = s0).
(** arguments of pack have the shapes of the reference *)
Definition shapes (ci : key -> option mat) : Prop := forall k c0, In k (keys nfrags) -> active k = true -> ci0 k = Some c0 ->
  exists c, ci k = Some c /\ nr c = nr c0.

Lemma active_some k : active k = true -> exists c0, ci0 k = Some c0.
Proof. unfold LsisModel.active. destruct (ci0 k) as [c|]; [eauto | discriminate]. Qed.

(** ** blocks *)
Definition seen (k : key) (piece : list K) : option mat :=
  match ci0 k with
  | None => None
  | Some c0 => match transformer k with
      | None => None
      | Some t => Some (if active k then vec_csf2det K t (reshape (nr c0) (nc c0) piece)
                        else mkMat (fst (ncsf_of K ci0 k)) (tndet t) (fun _ _ => s0))
      end
  end.
Lemma unpack_blocks_ok ks : incl ks (keys nfrags) -> forall bs z,
  Forall2 (fun k b => length b = bsize k) ks bs ->
  unpack_blocks ks (concat bs ++ z) = Ok (map (fun kb => (fst kb, seen (fst kb) (snd kb))) (combine ks bs), z).
Proof. clear Hsi.
  intros Hin bs z F. revert Hin. induction F as [|k b ks bs L F IH]; intros Hin; [reflexivity|].
  cbn [LsisModel.unpack_blocks concat combine map fst snd]. unfold seen, bsize in *.
  assert (Hk : In k (keys nfrags)) by (apply Hin; now left).
  destruct (ci0 k) as [c0|] eqn:E0.
  - destruct (Hci0 k c0 Hk E0) as (t & Et & _). rewrite Et. destruct (active k) eqn:Ea.
    + rewrite <- app_assoc.
      replace (_ <? _)%nat with false by (symmetry; apply Nat.ltb_ge; rewrite app_length; lia).
      cbn [bind fst snd]. rewrite <- L, firstn_app, firstn_all, Nat.sub_diag, skipn_app, skipn_all, Nat.sub_diag.
      cbn [firstn skipn app]. rewrite app_nil_r, IH by (intros x I; apply Hin; now right). reflexivity.
    + destruct b; [|discriminate]. cbn [app bind fst snd]. rewrite IH by (intros x I; apply Hin; now right). reflexivity.
  - assert (b = []) as -> by (destruct (active k); destruct b; auto; discriminate).
    cbn [app bind fst snd]. rewrite IH by (intros x I; apply Hin; now right). reflexivity.
Qed.
Lemma split_blocks ks : forall y : list K, (sumN (map bsize ks) <= length y)%nat ->
  exists bs, firstn (sumN (map bsize ks)) y = concat bs /\ Forall2 (fun k b => length b = bsize k) ks bs.
Proof. clear Hsi.
  induction ks as [|k ks IH]; intros y H; [exists []; split; [reflexivity | constructor]|].
  cbn [map] in *. change (sumN (bsize k :: map bsize ks)) with (bsize k + sumN (map bsize ks))%nat in *.
  destruct (IH (skipn (bsize k) y)) as (bs & E & F). { rewrite skipn_length. lia. }
  exists (firstn (bsize k) y :: bs). split.
  - rewrite firstn_plus, E. reflexivity.
  - constructor; [rewrite firstn_length; lia | exact F].
Qed.
Lemma concat_sizes ks bs : Forall2 (fun k (b : list K) => length b = bsize k) ks bs -> length (concat bs) = sumN (map bsize ks).
Proof.
  induction 1 as [|k b ks bs L F IH]; [reflexivity|]. cbn [concat map]. rewrite app_length, IH, L. reflexivity.
Qed.
Lemma getk_in l : NoDup (map fst l) -> forall k v, In (k, v) l -> getk K l k = v.
Proof. clear Hsi.
  induction l as [|[k' v'] l IH]; intros ND k v I; [contradiction|]. inversion ND; subst. unfold getk. cbn [find fst].
  destruct (key_eq_dec k' k) as [->|N].
  - destruct I as [E|I]; [now injection E|]. exfalso. apply H1. apply in_map_iff. exists (k, v). auto.
  - destruct I as [E|I]; [injection E as -> ->; contradiction|]. exact (IH H2 k v I).
Qed.
Lemma F2_combine {A B} (R : A -> B -> Prop) l m : Forall2 R l m -> forall a b, In (a, b) (combine l m) -> R a b.
Proof.
  induction 1 as [|x y l m Hx F IH]; intros a b I; [contradiction|]. destruct I as [E|I]; [injection E as -> ->; exact Hx | exact (IH a b I)].
Qed.
Lemma F2_len {A B} (R : A -> B -> Prop) l m : Forall2 R l m -> length l = length m.
Proof. induction 1; cbn; auto. Qed.
Lemma F2_intro {A B} (R : A -> B -> Prop) l m : length l = length m -> (forall a b, In (a, b) (combine l m) -> R a b) -> Forall2 R l m.
Proof. clear Hsi.
  revert m. induction l as [|x l IH]; intros [|y m] L H; cbn in L; try lia; constructor.
  - apply H. now left.
  - apply IH; [lia|]. intros a b I. apply H. now right.
Qed.
Lemma combine_fst {A B} (l : list A) (m : list B) : length l = length m -> map fst (combine l m) = l.
Proof. clear Hsi. revert m. induction l as [|x l IH]; intros [|y m] L; cbn in *; try lia; [reflexivity | f_equal; apply IH; lia]. Qed.

Lemma getk_seen bs : Forall2 (fun k (b : list K) => length b = bsize k) (keys nfrags) bs -> forall k b, In (k, b) (combine (keys nfrags) bs) ->
  getk K (map (fun kb => (fst kb, seen (fst kb) (snd kb))) (combine (keys nfrags) bs)) k = seen k b.
Proof.
  intros F k b I. apply getk_in.
  - rewrite map_map. cbn [fst]. rewrite combine_fst by (eapply F2_len, F). apply keys_nodup.
  - apply in_map_iff. exists (k, b). auto.
Qed.
(** the variables of a block after unpacking and packing *)
Definition again (k : key) (b : list K) : list K :=
  if active k then match ci0 k with Some c0 => ravel (remove K c0 (reshape (nr c0) (nc c0) b)) | None => [] end else [].
Lemma pack_seen ci k b : In k (keys nfrags) -> length b = bsize k -> ci k = seen k b -> pack_block ci k = Ok (again k b).
Proof.
  intros Hk L E. unfold LsisModel.pack_block, again. destruct (active k) eqn:Ea; [|reflexivity].
  destruct (active_some k Ea) as [c0 E0]. destruct (Hci0 k c0 Hk E0) as (t & Et & Ht & Hc).
  unfold seen in E. rewrite E0, Et, Ea in E. rewrite E0, Et, E. f_equal. apply ravel_ext, remove_ext.
  repeat split; cbn [LsisModel.vec_csf2det LsisModel.vec_det2csf LsisModel.reshape nr nc el]; auto.
  intros r j R J. now rewrite (tfm_inv t Ht) by exact J.
Qed.
Lemma again_tangent k b : tangent_block k b -> again k b = b.
Proof.
  unfold tangent_block, again. destruct (active k); [|now intros ->].
  intros (c0 & m & E0 & -> & R & C & P). rewrite E0, <- R, <- C.
  apply ravel_ext. apply meq_trans with m; [|repeat split; auto].
  apply meq_trans with (reshape (nr m) (nc m) (ravel m)); [|apply reshape_ravel].
  apply remove_perp_id. eapply perp_ext; [apply meq_sym, reshape_ravel|exact P].
Qed.
Lemma tangent_size k b : tangent_block k b -> length b = bsize k.
Proof.
  unfold tangent_block, bsize. destruct (active k); [|now intros ->].
  intros (c0 & m & E0 & -> & R & C & P). rewrite E0, ravel_length, R, C. reflexivity.
Qed.

(** ** the vectors of coefficients of the roots *)
Definition si_orthonormal : Prop := forall r s, (r < nroots)%nat -> (s < nroots)%nat ->
  el (adj_mul K si0 si0) r s = if (r =? s)%nat then s1 else s0.
Lemma adj_mul_add (a b c : mat) r s : nr b = nr c -> el (adj_mul K a (add K b c)) r s = el (adj_mul K a b) r s + el (adj_mul K a c) r s.
Proof.
  intros _. cbn [adj_mul add el]. rewrite <- bsum_add. apply bsum_ext. intros o _. ring.
Qed.
Lemma bsum_delta_l n k (f : nat -> K) : (k < n)%nat -> bsum (seq 0 n) (fun j => (if (k =? j)%nat then s1 else s0) * f j) = f k.
Proof.
  intros H. rewrite <- (bsum_delta K n k f H). apply bsum_ext. intros j _. rewrite (Nat.eqb_sym k j). ring.
Qed.
Lemma adj_mul_mul (z : mat) r s : si_orthonormal -> (r < nroots)%nat ->
  el (adj_mul K si0 (mul K si0 z)) r s = el z r s.
Proof.
  intros Ho R. destruct Hsi as [H1 H2]. cbn [adj_mul mul el]. rewrite H1, H2.
  rewrite (bsum_ext K _ _ (fun o => bsum (seq 0 nroots) (fun k => sconj (el si0 o r) * el si0 o k * el z k s))).
  2:{ intros o _. rewrite bsum_mul_l. apply bsum_ext. intros k _. ring. }
  rewrite bsum_swap.
  rewrite (bsum_ext K _ _ (fun k => (if (r =? k)%nat then s1 else s0) * el z k s)).
  2:{ intros k I. apply in_seq in I. rewrite <- bsum_mul_r. f_equal. rewrite <- (Ho r k) by lia. cbn [adj_mul el]. now rewrite H1. }
  exact (bsum_delta_l nroots r (fun k => el z k s) R).
Qed.
Lemma adj_mul_ext (a b c : mat) r s : nr b = nr a -> meq K b c -> (s < nc b)%nat -> el (adj_mul K a b) r s = el (adj_mul K a c) r s.
Proof.
  intros E (A & B & C) S. cbn [adj_mul el]. apply bsum_ext. intros o I. apply in_seq in I. rewrite C; [reflexivity | lia | lia].
Qed.

(** ** the whole vector *)
Definition zfun (y : list K) (r s : nat) : K := if (s <? r)%nat then nth (tril_index r s) (firstn nz y) s0 else s0.
Definition zmat (y : list K) : mat := mkMat nroots nroots (fun r s => half * (zfun y r s - zfun y s r)).
Lemma unpack_eq xo bs xz e : length xo = nvar_orb nmo idx -> Forall2 (fun k b => length b = bsize k) (keys nfrags) bs ->
  length xz = nz -> nr e = north -> nc e = nroots ->
  exists kappa si,
  unpack (xo ++ concat bs ++ xz ++ ravel e) =
    Ok (kappa, getk K (map (fun kb => (fst kb, seen (fst kb) (snd kb))) (combine (keys nfrags) bs)), raw2orthH si) /\
  (forall p q, kappa p q = scatter s0 nmo idx xo p q - scatter s0 nmo idx xo q p) /\
  meq K si (add K (mul K si0 (zmat xz)) e).
Proof.
  intros Lo F Lz Re Ce. unfold LsisModel.unpack.
  replace (_ <? _)%nat with false by (symmetry; apply Nat.ltb_ge; rewrite app_length; lia).
  rewrite <- Lo, firstn_app, firstn_all, Nat.sub_diag, skipn_app, skipn_all, Nat.sub_diag.
  cbn [firstn skipn app]. rewrite app_nil_r. rewrite unpack_blocks_ok by (auto using incl_refl). cbn [bind fst snd].
  rewrite <- Lz. rewrite skipn_app, skipn_all, Nat.sub_diag. cbn [skipn app].
  rewrite ravel_length, Re, Ce, Nat.eqb_refl.
  eexists. eexists. split; [reflexivity|]. split; [reflexivity|].
  destruct Hsi as [H1 H2].
  assert (Ee : forall r s, (r < north)%nat -> (s < nroots)%nat -> nth (r * nroots + s) (ravel e) s0 = el e r s).
  { intros r s R S. rewrite <- Ce. apply ravel_nth; lia. }
  destruct (length xz =? 0)%nat eqn:Z.
  - repeat split; cbn [add mul nr nc]; auto. intros r s R S. cbn [add reshape el mul nr nc] in *.
    rewrite Ee by assumption.
    rewrite bsum_0; [reflexivity|]. intros k I. apply in_seq in I. cbn [zmat el].
    assert (Z0 : forall a b, zfun xz a b = s0).
    { intros a b. unfold zfun. apply Nat.eqb_eq in Z. destruct xz; [|discriminate]. rewrite firstn_nil.
      destruct (b <? a)%nat; [|reflexivity]. now destruct (tril_index a b). }
    rewrite !Z0. ring.
  - repeat split; cbn [add mul nr nc]; auto. intros r s R S. cbn [add reshape el mul nr nc] in *.
    rewrite Ee by assumption.
    transitivity (bsum (seq 0 (nc si0)) (fun k => el si0 r k * el (zmat xz) k s) + el e r s); [|reflexivity].
    f_equal. transitivity (s0 + bsum (seq 0 (nc si0)) (fun k => el si0 r k * el (zmat xz) k s)); [|ring].
    f_equal. apply bsum_ext. intros k _. f_equal. cbn [zmat el]. unfold zfun.
    rewrite firstn_app, Lz, Nat.sub_diag. cbn [firstn]. rewrite app_nil_r. reflexivity.
Qed.

Lemma pack_parts kappa ci si bs : mapM (pack_block ci) (keys nfrags) = Ok bs ->
  exists xz, pack kappa ci si = Ok (map (fun pq => half * (kappa (fst pq) (snd pq) - kappa (snd pq) (fst pq))) (positions nmo idx) ++
      concat bs ++ xz ++ ravel (sub K (raw2orth si) (mul K si0 (adj_mul K si0 (raw2orth si))))) /\
    xz = map (fun rs => el (adj_mul K si0 (raw2orth si)) (fst rs) (snd rs) - el (adj_mul K si0 (raw2orth si)) (snd rs) (fst rs)) (tril nroots).
Proof. clear Hsi Hraw HrawH.
  intros E. unfold LsisModel.pack. rewrite E. cbn [bind]. eexists. split; [reflexivity|].
  destruct (1 <? nroots)%nat eqn:N; [reflexivity|]. apply Nat.ltb_ge in N. destruct nroots as [|[|n]]; [reflexivity | reflexivity | lia].
Qed.

Lemma pack_unpack_core xo bs xz e : length xo = nvar_orb nmo idx -> Forall2 (fun k b => length b = bsize k) (keys nfrags) bs ->
  length xz = nz -> nr e = north -> nc e = nroots -> si_orthonormal ->
  exists kappa ci si, unpack (xo ++ concat bs ++ xz ++ ravel e) = Ok (kappa, ci, si) /\ shapes ci /\
    (forall p q, kappa q p = - kappa p q) /\
    ((forall r s, (r < nroots)%nat -> (s < nroots)%nat -> el (adj_mul K si0 e) r s = s0) ->
     pack kappa ci si = Ok (xo ++ concat (map (fun kb => again (fst kb) (snd kb)) (combine (keys nfrags) bs)) ++ xz ++ ravel e)).
Proof.
  intros Lo F Lz Re Ce Ho. destruct (unpack_eq xo bs xz e Lo F Lz Re Ce) as (kappa & si & E & Ek & Es).
  set (ci := getk K _) in E. exists kappa, ci, (raw2orthH si). split; [exact E|].
  assert (Hseen : forall k b, In (k, b) (combine (keys nfrags) bs) -> ci k = seen k b) by exact (getk_seen bs F).
  split; [|split].
  - intros k c0 Ik Ak E0.
    assert (exists b, In (k, b) (combine (keys nfrags) bs)) as (b & Ib).
    { apply In_nth_error in Ik. destruct Ik as [n In_]. destruct (nth_error bs n) as [b|] eqn:Nb.
      - exists b. clear -In_ Nb. revert n bs In_ Nb. induction (keys nfrags) as [|k' l IH]; intros [|n] [|b' bs] I J; cbn in *; try discriminate.
        + injection I as ->. injection J as ->. now left.
        + right. exact (IH n bs I J).
      - apply nth_error_None in Nb. apply F2_len in F. assert (nth_error (keys nfrags) n <> None) as C by congruence. apply nth_error_Some in C. lia. }
    rewrite (Hseen k b Ib). unfold seen. destruct (Hci0 k c0 Ik E0) as (t & Et & _). rewrite E0, Et, Ak. eexists. split; [reflexivity|]. reflexivity.
  - intros p q. rewrite !Ek. ring.
  - intros Pe. destruct Hsi as [H1 H2].
    assert (Em : mapM (pack_block ci) (keys nfrags) = Ok (map (fun kb => again (fst kb) (snd kb)) (combine (keys nfrags) bs))).
    { apply mapM_f2. 
      assert (G : forall l m, incl l (keys nfrags) -> Forall2 (fun k b => length b = bsize k) l m -> (forall k b, In (k, b) (combine l m) -> ci k = seen k b) ->
        Forall2 (fun k b => pack_block ci k = Ok b) l (map (fun kb => again (fst kb) (snd kb)) (combine l m))).
      { clear -Hci0. intros l m Hin F. induction F as [|k b l m L F IH]; intros Hs; cbn [combine map]; constructor.
        - cbn [fst snd]. apply pack_seen; [apply Hin; now left | exact L | apply Hs; now left].
        - apply IH; [intros x I; apply Hin; now right | intros k' b' I; apply Hs; now right]. }
      apply G; auto using incl_refl. }
    destruct (pack_parts kappa ci (raw2orthH si) _ Em) as (xz' & Ep & Ez). rewrite Ep. f_equal.
    assert (Hs : nr si = north /\ nc si = nroots).
    { destruct Es as (A & B & _). cbn [add mul nr nc zmat] in A, B. rewrite A, B. auto. }
    assert (Er : meq K (raw2orth (raw2orthH si)) (add K (mul K si0 (zmat xz)) e)).
    { eapply meq_trans; [apply Hraw; apply Hs | exact Es]. }
    set (s := raw2orth (raw2orthH si)) in *.
    assert (Hsr : nr s = north /\ nc s = nroots).
    { destruct Er as (A & B & _). cbn [add mul nr nc zmat] in A, B. rewrite A, B. auto. }
    assert (Zs : forall r t, (r < nroots)%nat -> (t < nroots)%nat -> el (adj_mul K si0 s) r t = el (zmat xz) r t).
    { intros r t R T. rewrite (adj_mul_ext si0 s (add K (mul K si0 (zmat xz)) e)) by (try assumption; destruct Hsr; congruence).
      rewrite adj_mul_add by (cbn [mul nr]; congruence). rewrite adj_mul_mul by assumption. rewrite Pe by assumption. ring. }
    f_equal; [|f_equal; f_equal].
    + transitivity (map (fun pq => scatter s0 nmo idx xo (fst pq) (snd pq)) (positions nmo idx)); [|now apply gather_scatter].
      apply map_ext_in. intros [p q] I. apply positions_in in I. destruct I as (P & Q & I). cbn [fst snd]. rewrite !Ek.
      rewrite (scatter_out s0 nmo idx xo q p).
      2:{ intros (_ & _ & C). rewrite (Hidx p q P Q I) in C. discriminate. }
      transitivity (half * (scatter s0 nmo idx xo p q + scatter s0 nmo idx xo p q)); [ring | apply halve].
    + rewrite Ez. transitivity (map (fun rs => nth (tril_index (fst rs) (snd rs)) xz s0) (tril nroots)).
      2:{ rewrite tril_read by (rewrite Lz; apply Nat.le_refl). rewrite <- Lz at 1. apply firstn_all. }
      apply map_ext_in. intros [r t] I. apply tril_in in I. cbn [fst snd].
      rewrite (Zs r t) by lia. rewrite (Zs t r) by lia. cbn [zmat el]. unfold zfun.
      replace (t <? r)%nat with true by (symmetry; apply Nat.ltb_lt; lia).
      replace (r <? t)%nat with false by (symmetry; apply Nat.ltb_ge; lia).
      rewrite <- Lz, firstn_all. set (w := nth _ xz s0). transitivity (half * (w + w)); [ring | apply halve].
    + apply ravel_ext. repeat split; cbn [sub nr nc]; try apply Hsr; try (rewrite Re; apply Hsr); try (rewrite Ce; apply Hsr).
      intros r t R T. cbn [sub el]. destruct Er as (A & B & C). rewrite C by assumption. cbn [add el].
      cbn [mul el]. rewrite (bsum_ext K _ (fun k => el si0 r k * el (adj_mul K si0 s) k t) (fun k => el si0 r k * el (zmat xz) k t)); [ring|].
      intros k I. apply in_seq in I. f_equal. apply Zs; [lia|]. destruct Hsr. lia.
Qed.

(** ** what pack returns is tangent *)
Hypothesis Hon : forall k c0, In k (keys nfrags) -> active k = true -> ci0 k = Some c0 -> orthonormal K c0.
Lemma pack_blocks ci : shapes ci -> exists bs, mapM (pack_block ci) (keys nfrags) = Ok bs /\ Forall2 tangent_block (keys nfrags) bs /\
  Forall2 (fun k b => pack_block ci k = Ok b) (keys nfrags) bs.
Proof.
  intros Sh. destruct (mapM_in (pack_block ci) (keys nfrags)) as (bs & Em & F).
  { intros k Ik. unfold LsisModel.pack_block. destruct (active k) eqn:Ea; [|eauto].
    destruct (active_some k Ea) as [c0 E0]. destruct (Hci0 k c0 Ik E0) as (t & Et & _). destruct (Sh k c0 Ik Ea E0) as (c & Ec & _).
    rewrite Et, E0, Ec. eauto. }
  exists bs. split; [exact Em|]. split; [|exact F].
  assert (G : forall l m, incl l (keys nfrags) -> Forall2 (fun k b => pack_block ci k = Ok b) l m -> Forall2 tangent_block l m).
  { clear - Hci0 Hon Sh. intros l m Hin F. induction F as [|k b l m E F IH]; constructor.
    2:{ apply IH. intros x I. apply Hin. now right. }
    unfold tangent_block. unfold LsisModel.pack_block in E. assert (Ik : In k (keys nfrags)) by (apply Hin; now left).
    destruct (active k) eqn:Ea; [|now injection E].
    destruct (active_some k Ea) as [c0 E0]. destruct (Hci0 k c0 Ik E0) as (t & Et & Ht & Hc). destruct (Sh k c0 Ik Ea E0) as (c & Ec & Rc).
    rewrite Et, E0, Ec in E. injection E as <-. exists c0. eexists. split; [exact E0|]. split; [reflexivity|].
    split; [exact Rc|]. split; [cbn [remove nc LsisModel.vec_det2csf]; congruence|].
    apply remove_perp; [exact Hc | exact (Hon k c0 Ik Ea E0)]. }
  exact (G _ _ (incl_refl _) F).
Qed.
Lemma pack_tangent kappa ci si : shapes ci -> nr (raw2orth si) = north -> nc (raw2orth si) = nroots -> si_orthonormal ->
  exists x, pack kappa ci si = Ok x /\ tangent x.
Proof.
  intros Sh Rr Rc Ho. destruct Hsi as [H1 H2].
  destruct (pack_blocks ci Sh) as (bs & Em & G & _).
  destruct (pack_parts kappa ci si bs Em) as (xz & Ep & Ez). eexists. split; [exact Ep|].
  eexists. exists bs, xz. eexists. split; [reflexivity|]. split; [apply map_length|]. split; [|split; [|split; [|split]]].
  - exact G.
  - rewrite Ez, map_length. apply tril_length.
  - exact Rr.
  - exact Rc.
  - intros r s R S. set (z := adj_mul K si0 (raw2orth si)).
    transitivity (el (adj_mul K si0 (raw2orth si)) r s - el (adj_mul K si0 (mul K si0 z)) r s).
    + cbn [adj_mul sub el]. transitivity (bsum (seq 0 (nr si0)) (fun o => sconj (el si0 o r) * el (raw2orth si) o s + (- s1) * (sconj (el si0 o r) * el (mul K si0 z) o s))).
      * apply bsum_ext. intros o _. ring.
      * rewrite bsum_add, <- bsum_mul_l. ring.
    + rewrite adj_mul_mul by assumption. unfold z. ring.
Qed.
End P.
