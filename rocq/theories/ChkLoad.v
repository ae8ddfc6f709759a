(** Loading a record that has just been written. *)
From Coq Require Import List Arith Bool ZArith Lia String.
From Verif Require Import Base BaseFacts ChkModel ChkFacts ChkDump.
Import ListNotations.
Local Open Scope string_scope.
Local Open Scope list_scope.

(** key lists for which attributes, table, orbitals, symmetry tag and CI vectors do not collide *)
Definition reserved := ["frags_orbs"; "mo_coeff_orbsym"; "ci"; "ci_sf"; "ci_ch"].
Definition keys_ok (kc kr : list string) : Prop :=
  In "ncas_sub" kc /\ In "mo_coeff" (kc ++ kr)
  /\ (forall k, In k (kc ++ kr) -> ~ In k KEYS_SACONSTR_LASSCF /\ ~ In k reserved)
  /\ (forall k, In k kc -> k <> "e_states" /\ k <> "states_converged").
Definition sublist (l k : list string) : bool := forallb (fun x => existsb (String.eqb x) k) l.
Definition keys_okb (kc kr : list string) : bool :=
  existsb (String.eqb "ncas_sub") kc && existsb (String.eqb "mo_coeff") (kc ++ kr)
  && forallb (fun k => negb (existsb (String.eqb k) KEYS_SACONSTR_LASSCF) && negb (existsb (String.eqb k) reserved)) (kc ++ kr)
  && forallb (fun k => negb (String.eqb k "e_states") && negb (String.eqb k "states_converged")) kc.
Lemma existsb_In k l : existsb (String.eqb k) l = true <-> In k l.
Proof. rewrite existsb_exists. split; [intros (x & Hx & E%String.eqb_eq); now subst | intros H; exists k; split; [exact H | apply String.eqb_refl]]. Qed.
Lemma keys_okb_ok kc kr : keys_okb kc kr = true -> keys_ok kc kr.
Proof.
  unfold keys_okb, keys_ok. rewrite !andb_true_iff, !existsb_In, !forallb_forall. intros [[[H1 H2] H3] H4].
  repeat split; auto.
  - specialize (H3 k H). apply andb_prop in H3 as [H3 _]. intros Hi%existsb_In. now rewrite Hi in H3.
  - specialize (H3 k H). apply andb_prop in H3 as [_ H3]. intros Hi%existsb_In. now rewrite Hi in H3.
  - specialize (H4 k H). intros ->. discriminate.
  - specialize (H4 k H). intros ->. discriminate.
Qed.

Section C.
Context {A : Type}.
Variable len : option A -> nat.
Variable zero mol : A.
Notation op := (op A). Notation file := (file A). Notation las := (las A).
Notation get := (get A). Notation has := (has A). Notation run := (run A).

Definition top (m : string) (o : op) (x : string) : Prop := exists r, tgt o = m :: x :: r.
Lemma top_under m o x : top m o x <-> is_prefix ([m] ++ [x]) (tgt o) = true.
Proof. rewrite is_prefix_iff. split; intros [r Hr]; exists r; exact Hr. Qed.

Definition fo_ops (m : string) (fo : list (option A)) : list op :=
  MkGrp A [m; "frags_orbs"] :: map (fun iv => Put A [m; "frags_orbs"; nstr (fst iv)] (snd iv)) (enum fo).
Lemma fo_ord m fo : ord (fo_ops m fo) /\ under [m; "frags_orbs"] (fo_ops m fo).
Proof.
  unfold fo_ops. replace (map _ (enum fo)) with (flat_map (fun iv => [Put A [m; "frags_orbs"; nstr (fst iv)] (snd iv)]) (enum fo)).
  - apply (grp_forest (fun iv => nstr (fst iv))); [apply enum_keys|]. intros x _. split; [repeat constructor|].
    constructor; [apply is_prefix_refl | constructor].
  - generalize (enum fo). clear. induction l; cbn; congruence.
Qed.

(** keys under which dump_1 writes *)
Definition keys_1 (data : list (string * option A)) := map fst data ++ ["frags_orbs"; "mo_coeff_orbsym"].
Lemma dump1_top m data o x : In x (dump_1_ops A m data o) ->
  exists k, top m x k /\ (In k (map fst data) /\ (exists v, In (k, v) data /\ x = Put A [m; k] v)
     \/ k = "frags_orbs" /\ frags_orbs A o <> None
     \/ k = "mo_coeff_orbsym" /\ orbsym A o <> None).
Proof.
  unfold dump_1_ops. rewrite !in_app_iff. intros [H|[H|H]].
  - apply in_map_iff in H as ((k & v) & <- & Hi). exists k. split; [now exists []|]. left.
    split; [now apply (in_map fst) in Hi | eauto].
  - destruct (frags_orbs A o) as [fo|]; [|easy]. exists "frags_orbs". split; [|right; left; split; easy].
    destruct (fo_ord m fo) as [_ U]. unfold under in U. rewrite Forall_forall in U. apply top_under, U, H.
  - destruct (orbsym A o) as [a|]; [|easy]. destruct H as [<-|[]]. exists "mo_coeff_orbsym". split; [now exists []|].
    right; right. split; easy.
Qed.
Lemma dump1_ord m data o l : NoDup (map fst data) ->
  (forall k, In k (map fst data) -> k <> "frags_orbs" /\ k <> "mo_coeff_orbsym") -> ord l ->
  (forall x, In x l -> exists k, top m x k /\ ~ In k (keys_1 data)) ->
  ord (MkGrp A [m] :: dump_1_ops A m data o ++ l) /\ under [m] (dump_1_ops A m data o ++ l).
Proof.
  intros Hn Hk Hl Ht.
  assert (T : forall x, In x (dump_1_ops A m data o ++ l) -> exists k, top m x k).
  { intros x Hx. apply in_app_or in Hx as [Hx|Hx].
    - apply dump1_top in Hx as (k & Hx & _). eauto.
    - destruct (Ht x Hx) as (k & H & _). eauto. }
  assert (Xx : forall a b k k', k <> k' -> top m a k -> top m b k' -> is_prefix (tgt b) (tgt a) = false).
  { intros a b k k' E H1 H2. eapply (apart [m] k k'); [exact E | now apply top_under | now apply top_under]. }
  assert (Os : forall x : op, ord [x]) by (intros; repeat constructor).
  assert (On : @ord A []) by constructor.
  split.
  2:{ apply Forall_forall. intros x Hx. destruct (T x Hx) as (k & r & ->). apply is_prefix_iff. exists (k :: r). reflexivity. }
  apply grp.
  2:{ intros x Hx. destruct (T x Hx) as (k & r & ->). exists k, r. reflexivity. }
  apply ord_app; [|exact Hl|].
  - unfold dump_1_ops. apply ord_app; [|apply ord_app|].
    + apply (leaves fst (fun kv => Put A [m; fst kv] (snd kv)) [m] data); [exact Hn|]. reflexivity.
    + destruct (frags_orbs A o) as [fo|]; [apply (fo_ord m fo) | exact On].
    + destruct (orbsym A o); auto.
    + intros a b Ha Hb. destruct (frags_orbs A o) as [fo|]; [|easy]. destruct (orbsym A o); [|easy].
      destruct Hb as [<-|[]]. destruct (fo_ord m fo) as [_ U]. unfold under in U. rewrite Forall_forall in U.
      eapply (Xx _ _ "frags_orbs" "mo_coeff_orbsym"); [discriminate | apply top_under, U, Ha | now exists []].
    + intros a b Ha Hb. apply in_map_iff in Ha as ((k & v) & <- & Hi). apply (in_map fst) in Hi. cbn in Hi.
      destruct (Hk k Hi) as [K1 K2]. apply in_app_or in Hb as [Hb|Hb].
      * destruct (frags_orbs A o) as [fo|]; [|easy]. destruct (fo_ord m fo) as [_ U]. unfold under in U. rewrite Forall_forall in U.
        eapply (Xx _ _ k "frags_orbs"); [exact K1 | now exists [] | apply top_under, U, Hb].
      * destruct (orbsym A o); [|easy]. destruct Hb as [<-|[]].
        eapply (Xx _ _ k "mo_coeff_orbsym"); [exact K2 | now exists [] | now exists []].
  - intros a b Ha Hb. destruct (Ht b Hb) as (k' & Tb & N). destruct (dump1_top _ _ _ _ Ha) as (k & Ta & C).
    apply (Xx a b k k'); auto. intros ->. apply N. unfold keys_1. apply in_or_app.
    destruct C as [[C _]|[[C _]|[C _]]]; [now left | subst; right; cbn; auto | subst; right; cbn; auto].
Qed.

(** ** Data *)
Lemma data_keys kc kr o : map fst (get_data A kc kr o) = nodup string_dec (kc ++ kr) ++ KEYS_SACONSTR_LASSCF.
Proof. unfold get_data. rewrite map_app, !map_map. cbn [fst]. now rewrite map_id. Qed.
Lemma data_nodup kc kr o : keys_ok kc kr -> NoDup (map fst (get_data A kc kr o)).
Proof.
  intros (_ & _ & H & _). rewrite data_keys. apply NoDup_app_intro.
  - apply NoDup_nodup.
  - unfold KEYS_SACONSTR_LASSCF. repeat constructor; cbn; intuition discriminate.
  - intros x Hx. apply nodup_In in Hx. apply (H x Hx).
Qed.
Lemma data_reserved kc kr o k : keys_ok kc kr -> In k (map fst (get_data A kc kr o)) -> ~ In k reserved.
Proof.
  intros (_ & _ & H & _). rewrite data_keys. intros Hx. apply in_app_or in Hx as [Hx|Hx].
  - apply nodup_In in Hx. apply (H k Hx).
  - unfold KEYS_SACONSTR_LASSCF in Hx. cbn in Hx. unfold reserved. cbn. intuition (subst; discriminate).
Qed.
Lemma data_attr kc kr o k : In k (kc ++ kr) -> In (k, attr A o k) (get_data A kc kr o).
Proof. intros H. unfold get_data. apply in_or_app. left. apply in_map_iff. exists k. split; [reflexivity | now apply nodup_In]. Qed.
Lemma data_space kc kr o k : In k KEYS_SACONSTR_LASSCF -> In (k, space A o k) (get_data A kc kr o).
Proof. intros H. unfold get_data. apply in_or_app. right. apply in_map_iff. now exists k. Qed.

(** ** Loading attributes *)
Lemma load_keys_attr m f keys : forall o k,
  (forall k', In k' keys -> exists a, get [m; k'] f = Some a) ->
  attr A (load_keys A m f keys o) k = if existsb (String.eqb k) keys then get [m; k] f else attr A o k.
Proof.
  unfold load_keys. induction keys as [|x keys IH] using rev_ind; intros o k H; [reflexivity|].
  rewrite fold_left_app. cbn [fold_left]. destruct (H x) as [a Ha]; [apply in_or_app; right; now left|].
  rewrite Ha. cbn [attr set_attr]. rewrite existsb_app. cbn [existsb].
  destruct (String.eqb_spec k x) as [->|Hn].
  - now rewrite orb_true_r, Ha.
  - rewrite !orb_false_r. apply IH. intros k' Hk'. apply H, in_or_app. now left.
Qed.
Lemma load_keys_rest m f keys : forall o, space A (load_keys A m f keys o) = space A o /\ frags_orbs A (load_keys A m f keys o) = frags_orbs A o.
Proof.
  unfold load_keys. induction keys as [|x keys IH]; intros o; [easy|]. cbn [fold_left].
  destruct (get [m; x] f) as [a|]; [destruct (IH (set_attr A x (Some a) o)) as [-> ->]; now split | apply IH].
Qed.

(** the object has a value for everything that is written *)
Record complete (kc kr : list string) (o : las) : Prop := {
  c_attr : forall k, In k (kc ++ kr) -> attr A o k <> None;
  c_space : forall k, In k KEYS_SACONSTR_LASSCF -> space A o k <> None;
  c_fo : forall fo, frags_orbs A o = Some fo -> List.length fo = nfrags A len o /\ Forall (fun v => v <> None) fo }.

Lemma load1_written m kc kr f o o0 l ow : m <> "mol" -> keys_ok kc kr -> complete kc kr o ->
  ord l -> Forall adding l -> (forall x, In x l -> exists k, top m x k /\ In k ["ci"; "ci_sf"; "ci_ch"]) ->
  exists F o1, run f (chkdata_ops A mol ow m f ++ dump_1_ops A m (get_data A kc kr o) o ++ l) = (F, None)
   /\ has [m] F = true
   /\ load_1 A len zero m kc kr o0 F = Ok o1
   /\ (forall k, In k (kc ++ kr) -> attr A o1 k = attr A o k)
   /\ (forall k, In k KEYS_SACONSTR_LASSCF -> space A o1 k = space A o k)
   /\ frags_orbs A o1 = (match frags_orbs A o with Some fo => Some fo | None => frags_orbs A o0 end)
   /\ orbsym A o1 = orbsym A o
   /\ (forall p a, In (Put A (m :: p) (Some a)) l -> get (m :: p) F = Some a)
   /\ (forall x p, In x ["ci"; "ci_sf"; "ci_ch"] -> (forall a, ~ In (Put A (m :: x :: p) (Some a)) l) -> get (m :: x :: p) F = None)
   /\ (forall p y, In y l -> is_prefix (m :: p) (tgt y) = true -> has (m :: p) F = true)
   /\ (forall k, k <> m -> k <> "mol" -> same_at k f F).
Proof.
  intros Hm Hk Hc Hl Ha Ht. pose proof Hk as (Hk1 & Hk2 & Hk3 & Hk4).
  set (data := get_data A kc kr o).
  assert (Rd : forall k, In k (map fst data) -> ~ In k reserved) by (intros; eapply data_reserved; eauto).
  destruct (dump1_ord m data o l) as [Ho Hu].
  { now apply data_nodup. }
  { intros k Hi. apply Rd in Hi. cbn in Hi. split; intros ->; apply Hi; auto. }
  { exact Hl. }
  { intros x Hx. destruct (Ht x Hx) as (k & T & I). exists k. split; [exact T|]. unfold keys_1. intros J. apply in_app_or in J as [J|J].
    - apply Rd in J. apply J. unfold reserved. cbn in I |- *. tauto.
    - cbn in I, J. intuition (subst; discriminate). }
  assert (Hv : forall k v, In (k, v) data -> exists a, v = Some a).
  { intros k v Hi. unfold data, get_data in Hi. apply in_app_or in Hi as [Hi|Hi]; apply in_map_iff in Hi as (k' & [= -> <-] & Hi).
    - apply nodup_In in Hi. destruct (attr A o k) eqn:E; [eauto | destruct (c_attr _ _ _ Hc k Hi E)].
    - destruct (space A o k) eqn:E; [eauto | destruct (c_space _ _ _ Hc k Hi E)]. }
  destruct (written mol ow m f (dump_1_ops A m data o ++ l) Hm Ho Hu) as (F & R & HF & G1 & G2 & G3 & G4 & G5).
  { apply Forall_app. split; [|exact Ha]. unfold dump_1_ops. rewrite !Forall_app, !Forall_forall. repeat split.
    - intros x Hx. apply in_map_iff in Hx as ((k & v) & <- & Hi). destruct (Hv k v Hi) as [a ->]. now exists ([m; k], Dat A a).
    - intros x Hx. destruct (frags_orbs A o) as [fo|] eqn:E; [|easy]. destruct Hx as [<-|Hx]; [now exists ([m; "frags_orbs"], Grp A)|].
      apply in_map_iff in Hx as ((i & v) & <- & Hi). apply in_enum in Hi.
      destruct (c_fo _ _ _ Hc fo E) as [_ Hs]. rewrite Forall_forall in Hs. specialize (Hs v (nth_error_In _ _ Hi)).
      destruct v as [a|]; [|now destruct Hs]. now exists ([m; "frags_orbs"; nstr i], Dat A a).
    - intros x Hx. destruct (orbsym A o) as [a|]; [|easy]. destruct Hx as [<-|[]]. now exists ([m; "mo_coeff_orbsym"], Dat A a). }
  assert (Gd : forall k v, In (k, v) data -> get [m; k] F = v).
  { intros k v Hi. destruct (Hv k v Hi) as [a ->]. apply G1. apply in_or_app. left. unfold dump_1_ops. apply in_or_app. left.
    apply in_map_iff. now exists (k, Some a). }
  assert (Ga : forall k, In k (kc ++ kr) -> get [m; k] F = attr A o k) by (intros; now apply Gd, data_attr).
  assert (Gs : forall k, In k KEYS_SACONSTR_LASSCF -> get [m; k] F = space A o k) by (intros; now apply Gd, data_space).
  assert (Hd : forall k, In k (map fst data) -> has [m; k] F = true).
  { intros k Hi. apply in_map_iff in Hi as ((k' & v) & E & Hi). cbn in E. subst k'.
    apply (G3 [k] (Put A [m; k] v)); [|apply is_prefix_refl]. apply in_or_app. left. unfold dump_1_ops. apply in_or_app. left.
    apply in_map_iff. now exists (k, v). }
  (* loading *)
  set (oa := load_keys A m F kc o0).
  assert (SA : forallb (fun k => has [m; k] F) KEYS_SACONSTR_LASSCF = true).
  { apply forallb_forall. intros k Hi. apply Hd. unfold data. rewrite data_keys. apply in_or_app. now right. }
  set (ob := state_average A zero (fun k => get [m; k] F) oa).
  set (oc := load_keys A m F kr ob).
  assert (Gex : forall k, In k (kc ++ kr) -> exists a, get [m; k] F = Some a).
  { intros k Hi. rewrite (Ga k Hi). destruct (attr A o k) eqn:E; [eauto | destruct (c_attr _ _ _ Hc k Hi E)]. }
  assert (Ac : forall k, In k (kc ++ kr) -> attr A oc k = attr A o k).
  { intros k Hi. unfold oc. rewrite load_keys_attr by (intros; apply Gex, in_or_app; now right).
    destruct (existsb (String.eqb k) kr) eqn:E; [now apply Ga|].
    assert (In k kc) as Hkc.
    { apply in_app_or in Hi as [Hi|Hi]; [exact Hi|]. apply existsb_In in Hi. congruence. }
    destruct (Hk4 k Hkc) as [N1 N2]. unfold ob, state_average. cbn [attr set_attr].
    destruct (String.eqb_spec k "e_states"); [contradiction|]. destruct (String.eqb_spec k "states_converged"); [contradiction|].
    unfold oa. rewrite load_keys_attr by (intros; apply Gex, in_or_app; now left).
    rewrite (proj2 (existsb_In k kc) Hkc). now apply Ga. }
  destruct (load_keys_rest m F kr ob) as [Sc Fc]. fold oc in Sc, Fc.
  destruct (load_keys_rest m F kc o0) as [_ Fa]. fold oa in Fa.
  assert (Nf : nfrags A len oc = nfrags A len o).
  { unfold nfrags. rewrite Ac; [reflexivity|]. apply in_or_app. now left. }
  assert (Not1 : forall x y, In x (dump_1_ops A m data o ++ l) -> top m x y ->
      In y (map fst data) \/ y = "frags_orbs" /\ frags_orbs A o <> None \/ y = "mo_coeff_orbsym" /\ orbsym A o <> None \/ In y ["ci"; "ci_sf"; "ci_ch"]).
  { intros x y Hx [r T]. apply in_app_or in Hx as [Hx|Hx].
    - destruct (dump1_top _ _ _ _ Hx) as (k & [r' T'] & C). rewrite T in T'. injection T' as -> _. tauto.
    - destruct (Ht x Hx) as (k & [r' T'] & C). rewrite T in T'. injection T' as -> _. tauto. }
  assert (Nd : forall k, In k reserved -> ~ In k (map fst data)) by (intros k Hi Hj; apply (Rd k Hj Hi)).
  assert (Nfo : frags_orbs A o = None -> has [m; "frags_orbs"] F = false).
  { intros E. apply G4. intros x Hx. destruct (is_prefix [m; "frags_orbs"] (tgt x)) eqn:P; [|reflexivity].
    apply is_prefix_iff in P as [r Hr]. destruct (Not1 x "frags_orbs" Hx (ex_intro _ r Hr)) as [C|[[_ C]|[[C _]|C]]]; try easy.
    - now destruct (Nd "frags_orbs" (or_introl eq_refl)).
    - cbn in C. intuition discriminate. }
  assert (Gos : get [m; "mo_coeff_orbsym"] F = orbsym A o).
  { destruct (orbsym A o) as [a|] eqn:E.
    - apply G1. apply in_or_app. left. unfold dump_1_ops. rewrite E. apply in_or_app. right. apply in_or_app. right. now left.
    - apply G2. intros a Hi. destruct (Not1 _ "mo_coeff_orbsym" Hi (ex_intro _ [] eq_refl)) as [C|[[C _]|[[_ C]|C]]]; try easy.
      + destruct (Nd "mo_coeff_orbsym"); [cbn; auto | exact C].
      + cbn in C. intuition discriminate. }
  exists F, (mkLas A (attr A oc) (space A oc) (ci A oc)
    (match frags_orbs A o with Some fo => Some fo | None => frags_orbs A o0 end) (orbsym A o)).
  split; [exact R|]. split; [exact HF|]. split; [|split; [|split; [|split; [|split; [|split; [|split; [|split]]]]]]].
  - unfold load_1. fold oa. rewrite SA. fold ob oc.
    replace (match get [m; "mo_coeff_orbsym"] F with Some a => Some a | None => if has [m; "mo_coeff"] F then None else orbsym A oc end) with (orbsym A o).
    2:{ rewrite Gos. destruct (orbsym A o); [reflexivity|]. rewrite Hd; [reflexivity|]. unfold data. rewrite data_keys.
        apply in_or_app. left. now apply nodup_In. }
    destruct (frags_orbs A o) as [fo|] eqn:E.
    + rewrite (G3 ["frags_orbs"] (MkGrp A [m; "frags_orbs"])); [| |apply is_prefix_refl].
      2:{ apply in_or_app. left. unfold dump_1_ops. rewrite E. apply in_or_app. right. apply in_or_app. left. now left. }
      destruct (c_fo _ _ _ Hc fo E) as [Lf Nn]. rewrite Nf, <- Lf. rewrite (mapM_seq _ fo); [reflexivity|].
      intros i v Hi. unfold dat. rewrite Forall_forall in Nn. pose proof (Nn v (nth_error_In _ _ Hi)) as Hv'.
      destruct v as [a|]; [|now destruct Hv']. rewrite (G1 _ a); [reflexivity|]. apply in_or_app. left. unfold dump_1_ops. rewrite E.
      apply in_or_app. right. apply in_or_app. left. right. apply in_map_iff. exists (i, Some a). split; [reflexivity | now apply in_enum].
    + rewrite (Nfo eq_refl). cbn. rewrite Fc. unfold ob. cbn. now rewrite Fa.
  - exact Ac.
  - intros k Hi. cbn. rewrite Sc. unfold ob. cbn. now apply Gs.
  - reflexivity.
  - reflexivity.
  - intros p a Hi. apply G1, in_or_app. now right.
  - intros x p Hx Hn. apply G2. intros a Hi. apply in_app_or in Hi as [Hi|Hi]; [|now apply (Hn a)].
    destruct (dump1_top _ _ _ _ Hi) as (k & [r' T'] & C). cbn in T'. injection T' as -> _.
    assert (In k reserved) by (cbn in Hx |- *; tauto).
    destruct C as [[C _]|[[C _]|[C _]]]; [now apply (Nd k) | subst; cbn in Hx; intuition discriminate | subst; cbn in Hx; intuition discriminate].
  - intros p y Hy. apply G3, in_or_app. now right.
  - exact G5.
Qed.
End C.
