(** C36, C37: checkpoint files. *)
From Coq Require Import List Arith Bool ZArith Lia String.
From Verif Require Import Base BaseFacts ChkModel ChkFacts ChkDump ChkLoad.
Import ListNotations.
Local Open Scope string_scope.
Local Open Scope list_scope.

Section C.
Context {A : Type}.
Variable len : option A -> nat.
Variable zero mol : A.
Notation op := (op A). Notation file := (file A). Notation las := (las A).
Notation get := (get A). Notation has := (has A). Notation run := (run A).

(** a full table: one row per fragment, one vector per root *)
Definition full (t : list (list (option A))) (nf nr : nat) : Prop :=
  List.length t = nf /\ (forall r, In r t -> List.length r = nr /\ ~ In None r).

Lemma ci_ops_ok m t nf nr : full t nf nr ->
  ord (dump_ci_ops A m (Some t)) /\ Forall adding (dump_ci_ops A m (Some t)) /\ under [m; "ci"] (dump_ci_ops A m (Some t)).
Proof.
  intros [_ Hf]. unfold dump_ci_ops.
  assert (H : ord (flat_map (fun ir : nat * list (option A) => MkGrp A [m; "ci"; nstr (fst ir)]
     :: map (fun jv => Put A [m; "ci"; nstr (fst ir); nstr (fst jv)] (snd jv)) (enum (snd ir))) (enum t)) /\
     under [m; "ci"] (flat_map (fun ir : nat * list (option A) => MkGrp A [m; "ci"; nstr (fst ir)]
     :: map (fun jv => Put A [m; "ci"; nstr (fst ir); nstr (fst jv)] (snd jv)) (enum (snd ir))) (enum t))).
  { apply (forest (fun ir => nstr (fst ir))); [apply enum_keys|]. intros [i r] _. cbn [fst snd].
    replace (map _ (enum r)) with (flat_map (fun jv => [Put A [m; "ci"; nstr i; nstr (fst jv)] (snd jv)]) (enum r)).
    - apply (grp_forest (fun jv => nstr (fst jv))); [apply enum_keys|]. intros x _. split; [repeat constructor|].
      constructor; [apply is_prefix_refl | constructor].
    - generalize (enum r). clear. induction l; cbn; congruence. }
  split; [apply H|]. split; [|apply H]. apply Forall_forall. intros o Ho. apply in_flat_map in Ho as ((i & r) & Hi & Ho).
  apply in_enum in Hi. cbn [fst snd] in Ho. destruct Ho as [<-|Ho]; [eexists; reflexivity|].
  apply in_map_iff in Ho as ((j & v) & <- & Hj). apply in_enum in Hj. destruct (Hf r (nth_error_In _ _ Hi)) as [_ N].
  destruct v as [a|]; [eexists; reflexivity | destruct (N (nth_error_In _ _ Hj))].
Qed.

(** C36: a written record loads, into any object, and returns every attribute, the state table, the
    orbital lists, the symmetry tag and every CI vector. *)
Theorem C36_las_round_trip m kc kr f o o0 t ow :
  In (kc, kr) [(KEYS_CONFIG_LASSCF, KEYS_RESULTS_LASSCF); (KEYS_CONFIG_LASSI, KEYS_RESULTS_LASSI)] ->
  m <> "mol" -> complete len kc kr o ->
  ci A o = Some t -> full t (nfrags A len o) (nroots A len o) -> t <> [] ->
  exists F o1, dump_las A m kc kr mol ow o f = (F, None)
   /\ load_las A len zero m kc kr o0 F = Ok o1
   /\ (forall k, In k (kc ++ kr) -> attr A o1 k = attr A o k)
   /\ (forall k, In k KEYS_SACONSTR_LASSCF -> space A o1 k = space A o k)
   /\ ci A o1 = ci A o
   /\ frags_orbs A o1 = (match frags_orbs A o with Some fo => Some fo | None => frags_orbs A o0 end)
   /\ orbsym A o1 = orbsym A o.
Proof.
  intros Hk Hm Hc Ht Hf Hne.
  assert (K : keys_ok kc kr).
  { destruct Hk as [[= <- <-]|[[= <- <-]|[]]]; apply keys_okb_ok; vm_compute; reflexivity. }
  destruct (ci_ops_ok m t _ _ Hf) as (O1 & O2 & O3). unfold under in O3. rewrite Forall_forall in O3.
  destruct (load1_written len zero mol m kc kr f o o0 (dump_ci_ops A m (Some t)) ow Hm K Hc O1 O2)
    as (F & o1 & R & HF & L & A1 & A2 & A3 & A4 & G1 & _ & G3 & _).
  { intros x Hx. exists "ci". split; [apply top_under, O3, Hx | now left]. }
  assert (Nf : nfrags A len o1 = nfrags A len o).
  { unfold nfrags. rewrite A1; [reflexivity|]. destruct K as [K _]. apply in_or_app. now left. }
  assert (Nr : nroots A len o1 = nroots A len o) by (unfold nroots; rewrite A2; [reflexivity | now left]).
  destruct Hf as [Hf1 Hf2].
  assert (Hrow : forall i r, nth_error t i = Some r -> In (MkGrp A [m; "ci"; nstr i]) (dump_ci_ops A m (Some t))).
  { intros i r Hi. unfold dump_ci_ops. apply in_flat_map. exists (i, r). split; [now apply in_enum | now left]. }
  exists F, (mkLas A (attr A o1) (space A o1) (Some t) (frags_orbs A o1) (orbsym A o1)).
  split; [unfold dump_las, dump_ops; rewrite Ht; exact R|]. split; [|cbn; rewrite Ht; repeat split; auto].
  unfold load_las. rewrite HF, L. cbn [bind]. unfold load_ci.
  rewrite (G3 ["ci"] (MkGrp A [m; "ci"; nstr 0])).
  - cbn [negb]. rewrite Nf, Nr, <- Hf1. rewrite (mapM_seq _ t); [reflexivity|].
    intros i r Hi. rewrite (G3 ["ci"; nstr i] _ (Hrow i r Hi)) by apply is_prefix_refl.
    destruct (Hf2 r (nth_error_In _ _ Hi)) as [Lr Nn]. rewrite <- Lr. apply mapM_seq.
    intros j v Hj. unfold dat. destruct v as [a|]; [|destruct (Nn (nth_error_In _ _ Hj))].
    rewrite (G1 _ a); [reflexivity|]. unfold dump_ci_ops. apply in_flat_map. exists (i, r). split; [now apply in_enum|]. right.
    apply in_map_iff. exists (j, Some a). split; [reflexivity | now apply in_enum].
  - destruct t as [|r t]; [easy|]. now apply (Hrow 0%nat r).
  - cbn. now rewrite String.eqb_refl.
Qed.

(** the optional tables of LASSIS *)
Lemma sf_ok m nf sf : ord (dump_sf_ops A m nf sf) /\ under [m; "ci_sf"] (dump_sf_ops A m nf sf) /\ Forall adding (dump_sf_ops A m nf sf).
Proof.
  assert (H : ord (dump_sf_ops A m nf sf) /\ under [m; "ci_sf"] (dump_sf_ops A m nf sf)).
  { unfold dump_sf_ops. apply (grp_forest nstr); [apply seq_keys|]. intros i _.
    apply (grp_forest nstr); [apply seq_keys|]. intros s _. destruct (sf i s); split; try constructor; try constructor. apply is_prefix_refl. }
  destruct H as [H1 H2]. repeat split; auto. unfold dump_sf_ops. constructor; [eexists; reflexivity|].
  apply Forall_forall. intros o Ho. apply in_flat_map in Ho as (i & _ & [<-|Ho]); [eexists; reflexivity|].
  apply in_flat_map in Ho as (s & _ & Ho). destruct (sf i s); [|easy]. destruct Ho as [<-|[]]. eexists; reflexivity.
Qed.
Lemma ch_ok m nf ch : ord (dump_ch_ops A m nf ch) /\ under [m; "ci_ch"] (dump_ch_ops A m nf ch) /\ Forall adding (dump_ch_ops A m nf ch).
Proof.
  assert (H : ord (dump_ch_ops A m nf ch) /\ under [m; "ci_ch"] (dump_ch_ops A m nf ch)).
  { unfold dump_ch_ops. apply (grp_forest nstr); [apply seq_keys|]. intros i _.
    apply (grp_forest nstr); [apply seq_keys|]. intros a _.
    apply (grp_forest nstr); [apply seq_keys|]. intros s _.
    apply (grp_forest nstr); [apply seq_keys|]. intros p _. destruct (ch i a s p); split; try constructor; try constructor. apply is_prefix_refl. }
  destruct H as [H1 H2]. repeat split; auto. unfold dump_ch_ops. constructor; [eexists; reflexivity|].
  apply Forall_forall. intros o Ho. apply in_flat_map in Ho as (i & _ & [<-|Ho]); [eexists; reflexivity|].
  apply in_flat_map in Ho as (a & _ & [<-|Ho]); [eexists; reflexivity|].
  apply in_flat_map in Ho as (s & _ & [<-|Ho]); [eexists; reflexivity|].
  apply in_flat_map in Ho as (p & _ & Ho). destruct (ch i a s p); [|easy]. destruct Ho as [<-|[]]. eexists; reflexivity.
Qed.
Lemma in_sf m nf sf p y : In (Put A p (Some y)) (dump_sf_ops A m nf sf) <->
  exists i s, (i < nf)%nat /\ (s < 2)%nat /\ sf i s = Some y /\ p = [m; "ci_sf"; nstr i; nstr s].
Proof.
  unfold dump_sf_ops. split.
  - intros [H|H]; [discriminate|]. apply in_flat_map in H as (i & Hi & [H|H]); [discriminate|].
    apply in_flat_map in H as (s & Hs & H). apply in_seq in Hi, Hs. exists i, s. destruct (sf i s) as [z|]; [|easy].
    destruct H as [[= <- <-]|[]]. repeat split; lia || auto.
  - intros (i & s & Hi & Hs & E & ->). right. apply in_flat_map. exists i. split; [apply in_seq; lia|]. right.
    apply in_flat_map. exists s. split; [apply in_seq; lia|]. rewrite E. now left.
Qed.
Lemma in_ch m nf ch q y : In (Put A q (Some y)) (dump_ch_ops A m nf ch) <->
  exists i a s p, (i < nf)%nat /\ (a < nf)%nat /\ (s < 4)%nat /\ (p < 2)%nat /\ ch i a s p = Some y
     /\ q = [m; "ci_ch"; nstr i; nstr a; nstr s; nstr p].
Proof.
  unfold dump_ch_ops. split.
  - intros [H|H]; [discriminate|]. apply in_flat_map in H as (i & Hi & [H|H]); [discriminate|].
    apply in_flat_map in H as (a & Ha & [H|H]); [discriminate|].
    apply in_flat_map in H as (s & Hs & [H|H]); [discriminate|].
    apply in_flat_map in H as (p & Hp & H). apply in_seq in Hi, Hs, Ha, Hp. exists i, a, s, p. destruct (ch i a s p) as [z|]; [|easy].
    destruct H as [[= <- <-]|[]]. repeat split; lia || auto.
  - intros (i & a & s & p & Hi & Ha & Hs & Hp & E & ->). right.
    apply in_flat_map. exists i. split; [apply in_seq; lia|]. right.
    apply in_flat_map. exists a. split; [apply in_seq; lia|]. right.
    apply in_flat_map. exists s. split; [apply in_seq; lia|]. right.
    apply in_flat_map. exists p. split; [apply in_seq; lia|]. rewrite E. now left.
Qed.
Lemma mapM_fun {X} (g : nat -> res X) (h : nat -> X) n : (forall i, (i < n)%nat -> g i = Ok (h i)) -> mapM g (seq 0 n) = Ok (map h (seq 0 n)).
Proof.
  intros H. replace (seq 0 n) with (seq 0 (List.length (map h (seq 0 n)))) at 1 by now rewrite map_length, seq_length.
  apply mapM_seq. intros i x Hx. rewrite nth_error_map in Hx. destruct (nth_error (seq 0 n) i) as [j|] eqn:E; [|discriminate].
  injection Hx as <-. assert (i < n)%nat by (rewrite <- (seq_length n 0); apply nth_error_Some; congruence).
  rewrite (nth_error_nth' _ 0%nat) in E by (now rewrite seq_length). injection E as <-. rewrite seq_nth by lia. now apply H.
Qed.

Theorem C36_lassis_round_trip m f o o0 sf ch ow : m <> "mol" ->
  complete len KEYS_CONFIG_LASSI KEYS_RESULTS_LASSIS o ->
  let nf := nfrags A len o in
  exists F o1, run f (chkdata_ops A mol ow m f
        ++ dump_1_ops A m (get_data A KEYS_CONFIG_LASSI KEYS_RESULTS_LASSIS o) o
        ++ dump_sf_ops A m nf sf ++ dump_ch_ops A m nf ch) = (F, None)
   /\ load_1 A len zero m KEYS_CONFIG_LASSI KEYS_RESULTS_LASSIS o0 F = Ok o1
   /\ (forall k, In k (KEYS_CONFIG_LASSI ++ KEYS_RESULTS_LASSIS) -> attr A o1 k = attr A o k)
   /\ (forall k, In k KEYS_SACONSTR_LASSCF -> space A o1 k = space A o k)
   /\ frags_orbs A o1 = (match frags_orbs A o with Some fo => Some fo | None => frags_orbs A o0 end)
   /\ orbsym A o1 = orbsym A o
   /\ load_sf A m (nfrags A len o1) F = Ok (map (fun i => map (sf i) (seq 0 2)) (seq 0 nf))
   /\ load_ch A m (nfrags A len o1) F = Ok (map (fun i => map (fun a => map (fun s => map (ch i a s) (seq 0 2)) (seq 0 4)) (seq 0 nf)) (seq 0 nf)).
Proof.
  intros Hm Hc nf.
  assert (K : keys_ok KEYS_CONFIG_LASSI KEYS_RESULTS_LASSIS) by (apply keys_okb_ok; vm_compute; reflexivity).
  destruct (sf_ok m nf sf) as (S1 & S2 & S3). destruct (ch_ok m nf ch) as (C1 & C2 & C3).
  pose proof S2 as S2'. pose proof C2 as C2'. unfold under in S2', C2'. rewrite Forall_forall in S2', C2'.
  destruct (load1_written len zero mol m _ _ f o o0 (dump_sf_ops A m nf sf ++ dump_ch_ops A m nf ch) ow Hm K Hc)
    as (F & o1 & R & HF & L & A1 & A2 & A3 & A4 & G1 & G2 & G3 & _).
  { apply (ord_apart [m] "ci_sf" "ci_ch"); auto. discriminate. }
  { now apply Forall_app. }
  { intros x Hx. apply in_app_or in Hx as [Hx|Hx].
    - exists "ci_sf". split; [apply top_under, S2', Hx | right; now left].
    - exists "ci_ch". split; [apply top_under, C2', Hx | right; right; now left]. }
  assert (Nf : nfrags A len o1 = nf).
  { unfold nf, nfrags. rewrite A1; [reflexivity|]. destruct K as [K _]. apply in_or_app. now left. }
  exists F, o1. do 6 (split; [assumption|]). rewrite Nf. split.
  - unfold load_sf, need. rewrite (G3 ["ci_sf"] (MkGrp A [m; "ci_sf"])); [| now left | apply is_prefix_refl].
    cbn [bind]. apply mapM_fun. intros i Hi.
    rewrite (G3 ["ci_sf"; nstr i] (MkGrp A [m; "ci_sf"; nstr i])); [| |apply is_prefix_refl].
    2:{ apply in_or_app. left. right. apply in_flat_map. exists i. split; [apply in_seq; lia | now left]. }
    cbn [bind]. f_equal. apply map_ext_in. intros s Hs. apply in_seq in Hs. destruct (sf i s) as [a|] eqn:E.
    + apply G1, in_or_app. left. apply in_sf. exists i, s. repeat split; auto; lia.
    + apply G2; [right; now left|]. intros a Ha. apply in_app_or in Ha as [Ha|Ha].
      * apply in_sf in Ha as (i' & s' & _ & _ & E' & P). injection P as P1 P2. apply nstr_inj in P1, P2. congruence.
      * apply in_ch in Ha as (? & ? & ? & ? & _ & _ & _ & _ & _ & P). discriminate.
  - unfold load_ch, need. rewrite (G3 ["ci_ch"] (MkGrp A [m; "ci_ch"])); [| apply in_or_app; right; now left | apply is_prefix_refl].
    cbn [bind]. apply mapM_fun. intros i Hi.
    rewrite (G3 ["ci_ch"; nstr i] (MkGrp A [m; "ci_ch"; nstr i])); [| |apply is_prefix_refl].
    2:{ apply in_or_app. right. right. apply in_flat_map. exists i. split; [apply in_seq; lia | now left]. }
    cbn [bind]. apply mapM_fun. intros b Hb.
    rewrite (G3 ["ci_ch"; nstr i; nstr b] (MkGrp A [m; "ci_ch"; nstr i; nstr b])); [| |apply is_prefix_refl].
    2:{ apply in_or_app. right. right. apply in_flat_map. exists i. split; [apply in_seq; lia | right].
        apply in_flat_map. exists b. split; [apply in_seq; lia | now left]. }
    cbn [bind]. apply mapM_fun. intros s Hs.
    rewrite (G3 ["ci_ch"; nstr i; nstr b; nstr s] (MkGrp A [m; "ci_ch"; nstr i; nstr b; nstr s])); [| |apply is_prefix_refl].
    2:{ apply in_or_app. right. right. apply in_flat_map. exists i. split; [apply in_seq; lia | right].
        apply in_flat_map. exists b. split; [apply in_seq; lia | right]. apply in_flat_map. exists s. split; [apply in_seq; lia | now left]. }
    cbn [bind]. f_equal. apply map_ext_in. intros p Hp. apply in_seq in Hp. destruct (ch i b s p) as [a|] eqn:E.
    + apply G1, in_or_app. right. apply in_ch. exists i, b, s, p. repeat split; auto; lia.
    + apply G2; [right; right; now left|]. intros a Ha. apply in_app_or in Ha as [Ha|Ha].
      * apply in_sf in Ha as (? & ? & _ & _ & _ & P). discriminate.
      * apply in_ch in Ha as (i' & b' & s' & p' & _ & _ & _ & _ & E' & P). injection P as P1 P2 P3 P4. apply nstr_inj in P1, P2, P3, P4. congruence.
Qed.

(** ** C37 *)
Definition head_in (ks : list string) (o : op) : Prop := exists k r, In k ks /\ tgt o = k :: r.
Lemma step_same k ks (o : op) (f f' : file) : ~ In k ks -> head_in ks o -> step A f o = Ok f' -> same_at k f f'.
Proof.
  intros Hk (k' & r & Hi & Ht) Hs.
  assert (Hn : k <> k') by (intros ->; contradiction).
  assert (P : forall s, is_prefix (k :: s) (k' :: r) = false) by (intros s; cbn; destruct (String.eqb_spec k k'); [contradiction|reflexivity]).
  destruct o as [x|p|p [a|]]; cbn in Ht, Hs; try discriminate.
  - destruct (has [x] f); [|discriminate]. injection Hs as <-. injection Ht as -> _. now apply (same_without k k').
  - destruct (has p f); [discriminate|]. injection Hs as <-. apply same_snoc. intros s. cbn [fst]. rewrite Ht. apply P.
  - destruct (has p f); [discriminate|]. injection Hs as <-. apply same_snoc. intros s. cbn [fst]. rewrite Ht. apply P.
Qed.
Lemma run_same k ks (l : list op) : ~ In k ks -> Forall (head_in ks) l -> forall f, same_at k f (fst (run f l)).
Proof.
  intros Hk. induction 1 as [|o l Ho Hl IH]; intros f; [intros r; auto|].
  cbn [ChkModel.run]. destruct (step A f o) as [f'|e] eqn:E; [|intros r; auto].
  eapply same_trans; [eapply step_same; eauto | apply IH].
Qed.
Lemma Forall_firstn {X} (P : X -> Prop) n l : Forall P l -> Forall P (firstn n l).
Proof. intros H. revert n. induction H; intros [|n]; cbn; constructor; auto. Qed.
Lemma dump_heads m kc kr ow o f : Forall (head_in ["mol"; m]) (dump_ops A m kc kr mol ow o f).
Proof.
  assert (M : forall o : op, (exists r, tgt o = m :: r) -> head_in ["mol"; m] o).
  { intros o' [r Hr]. exists m, r. split; [right; now left | exact Hr]. }
  assert (Ml : forall o : op, (exists r, tgt o = "mol" :: r) -> head_in ["mol"; m] o).
  { intros o' [r Hr]. exists "mol", r. split; [now left | exact Hr]. }
  unfold dump_ops. apply Forall_app. split; [|apply Forall_app; split].
  - unfold chkdata_ops. rewrite !Forall_app. split; [|split].
    + destruct (negb _); [|destruct ow]; repeat constructor; apply Ml; now exists [].
    + destruct (has [m] f); repeat constructor. apply M. now exists [].
    + repeat constructor. apply M. now exists [].
  - apply Forall_forall. intros x Hx. apply M. destruct (dump1_top _ _ _ _ Hx) as (k & [r Hr] & _). eauto.
  - apply Forall_forall. intros x Hx. apply M. unfold dump_ci_ops in Hx. destruct (ci A o) as [t|].
    + apply in_flat_map in Hx as ((i & r) & _ & [<-|Hx]); [now eexists|]. apply in_map_iff in Hx as (jv & <- & _). now eexists.
    + destruct Hx as [<-|[]]. now eexists.
Qed.

(** At whatever operation the write stops, every other record of the file is untouched. *)
Theorem C37_other_records_partial m kc kr ow o f n k : k <> m -> k <> "mol" ->
  forall r, let F := fst (run f (firstn n (dump_ops A m kc kr mol ow o f))) in
    get (k :: r) F = get (k :: r) f /\ has (k :: r) F = has (k :: r) f.
Proof.
  intros H1 H2 r F.
  destruct (run_same k ["mol"; m] (firstn n (dump_ops A m kc kr mol ow o f))) with (f := f) (r := r) as [E1 E2]; auto.
  - cbn. intuition congruence.
  - apply Forall_firstn, dump_heads.
Qed.

(** The method's own record survives only if the write stops before the deletion that precedes all
    data; from then on nothing of the previous record can be read. *)
Definition deletion_at (ow : bool) (f : file) : nat := if negb (has ["mol"] f) then 1 else if ow then 2 else 0.
Theorem C37_own_record_partial m kc kr ow o f n : m <> "mol" -> has [m] f = true ->
  let F := fst (run f (firstn n (dump_ops A m kc kr mol ow o f))) in
  ((n <= deletion_at ow f)%nat -> forall r, get (m :: r) F = get (m :: r) f /\ has (m :: r) F = has (m :: r) f)
  /\ ((deletion_at ow f < n)%nat -> forall r a, get (m :: r) F = Some a ->
        In (Put A (m :: r) (Some a)) (dump_1_ops A m (get_data A kc kr o) o ++ dump_ci_ops A m (ci A o))).
Proof.
  intros Hm Hh F.
  set (pre := if negb (has ["mol"] f) then [Put A ["mol"] (Some mol)]
     else if ow then [Del A "mol"; Put A ["mol"] (Some mol)] else []).
  set (data := dump_1_ops A m (get_data A kc kr o) o ++ dump_ci_ops A m (ci A o)).
  assert (D : dump_ops A m kc kr mol ow o f = pre ++ Del A m :: MkGrp A [m] :: data).
  { unfold dump_ops, chkdata_ops. rewrite Hh. fold pre. rewrite <- app_assoc. reflexivity. }
  assert (Lp : List.length pre = deletion_at ow f) by (unfold pre, deletion_at; destruct (negb _); [|destruct ow]; reflexivity).
  assert (Hp : Forall (head_in ["mol"]) pre).
  { unfold pre. destruct (negb _); [|destruct ow]; repeat constructor; exists "mol", []; split; auto; now left. }
  split.
  - intros Hn r. unfold F. rewrite D, firstn_app. replace (n - List.length pre)%nat with 0%nat by lia. rewrite firstn_O, app_nil_r.
    destruct (run_same m ["mol"] (firstn n pre)) with (f := f) (r := r) as [E1 E2]; auto.
    + cbn. intuition congruence.
    + now apply Forall_firstn.
  - intros Hn r a. unfold F. rewrite D, firstn_app, firstn_all2 by lia.
    replace (n - List.length pre)%nat with (S (n - S (List.length pre)))%nat by lia. cbn [firstn].
    rewrite run_app.
    assert (Rp : exists f1, run f pre = (f1, None) /\ has [m] f1 = true).
    { pose proof (run_same m ["mol"] pre) as S. assert (run f pre = (fst (run f pre), None)) as R.
      { unfold pre. destruct (has ["mol"] f) eqn:E; cbn [negb].
        - destruct ow; [|reflexivity]. cbn [ChkModel.run step]. rewrite E. fold (without "mol" f). now rewrite has_without.
        - cbn [ChkModel.run step]. now rewrite E. }
      exists (fst (run f pre)). split; [exact R|]. destruct (S) with (f := f) (r := @nil string) as [_ E2]; auto.
      + cbn. intuition congruence.
      + now rewrite <- E2. }
    destruct Rp as (f1 & -> & H1). cbn [ChkModel.run step]. rewrite H1. fold (without m f1).
    assert (N : forall l (g : file), (forall q b, In (m :: q, Dat A b) g -> In (Put A (m :: q) (Some b)) data) -> incl l (MkGrp A [m] :: data) ->
        forall q b, In (m :: q, Dat A b) (fst (run g l)) -> In (Put A (m :: q) (Some b)) data).
    { induction l as [|x l IH]; intros g Hg Hl q b; cbn [ChkModel.run]; [apply Hg|].
      destruct (step A g x) as [g'|e] eqn:E; [|apply Hg].
      apply IH; [|intros y Hy; apply Hl; now right]. intros q' b' Hi.
      assert (In x (MkGrp A [m] :: data)) as Hx by (apply Hl; now left).
      destruct x as [k|p|p [v|]]; cbn in E.
      - destruct (has [k] g); [|discriminate]. injection E as <-. apply filter_In in Hi as [Hi _]. now apply Hg.
      - destruct (has p g); [discriminate|]. injection E as <-. apply in_app_or in Hi as [Hi|[Hi|[]]]; [now apply Hg | discriminate].
      - destruct (has p g); [discriminate|]. injection E as <-. apply in_app_or in Hi as [Hi|[Hi|[]]]; [now apply Hg |].
        injection Hi as -> ->. destruct Hx as [Hx|Hx]; [discriminate | exact Hx].
      - discriminate. }
    intros Hg. unfold get, ChkModel.get in Hg. destruct (find _ _) as [[q [|b]]|] eqn:E; try discriminate. injection Hg as ->.
    apply find_some in E as [E1 E2]. cbn in E2.
    destruct q as [|x q]; [discriminate|]. apply andb_prop in E2 as [E2 E3]. apply String.eqb_eq in E2. apply path_eqb_eq in E3. subst x q.
    eapply N; [| |exact E1].
    + intros q b Hi. apply filter_In in Hi as [_ Hi]. cbn in Hi. rewrite String.eqb_refl in Hi. discriminate.
    + intros y Hy. clear - Hy. revert Hy. generalize (n - S (List.length pre))%nat. generalize (MkGrp A [m] :: data).
      induction l as [|z l IH]; intros [|k] Hy; cbn in Hy; try easy. destruct Hy as [->|Hy]; [now left | right; eauto].
Qed.
End C.

(** Example and witnesses: values are integer lists, two fragments, two states *)
Module ChkEx.
Local Open Scope Z_scope.
Definition len (v : option (list Z)) : nat := match v with Some l => List.length l | None => 0%nat end.
Definition at1 (k : string) : option (list Z) := if String.eqb k "ncas_sub" then Some [2;3] else Some [Z.of_nat (String.length k)].
Definition sp1 (k : string) : option (list Z) := if String.eqb k "weights" then Some [1;0] else Some [7; Z.of_nat (String.length k)].
Definition t1 := [[Some [1]; Some [1;2]]; [Some [1;2;3]; Some []]].
Definition o1 := mkLas (list Z) at1 sp1 (Some t1) (Some [Some [0;1]; Some [2;3;4]]) (Some [9]).
Definition o2 := mkLas (list Z) at1 sp1 None None None.
Definition dump o f := dump_las (list Z) "las" KEYS_CONFIG_LASSCF KEYS_RESULTS_LASSCF [42] true o f.
Definition load f := load_las (list Z) len [0] "las" KEYS_CONFIG_LASSCF KEYS_RESULTS_LASSCF o2 f.
Definition okv (r : res (las (list Z))) := match r with Ok o => Some (ci _ o, frags_orbs _ o, orbsym _ o, attr _ o "e_tot", space _ o "spins") | _ => None end.
End ChkEx.
Example C36_example : snd (ChkEx.dump ChkEx.o1 []) = None
  /\ ChkEx.okv (ChkEx.load (fst (ChkEx.dump ChkEx.o1 []))) = Some (Some ChkEx.t1, Some [Some [0;1]%Z; Some [2;3;4]%Z], Some [9]%Z, Some [5]%Z, Some [7;5]%Z).
Proof. vm_compute. auto. Qed.
(** a record exists and loads; the next write (of an object whose CI vectors are unset) raises, and
    the record cannot be loaded any more *)
Theorem C37_refuted : exists f o,
  (exists x, ChkEx.load f = Ok x) /\ snd (ChkEx.dump o f) = Some TypeError
  /\ ChkEx.load (fst (ChkEx.dump o f)) = Raise KeyError.
Proof.
  exists (fst (ChkEx.dump ChkEx.o1 [])), ChkEx.o2. split; [|split]; [|vm_compute; reflexivity..].
  eexists. vm_compute. reflexivity.
Qed.
(** the same if the process is killed in the middle of an otherwise successful write *)
Theorem C37_crash_refuted : exists f o n,
  (exists x, ChkEx.load f = Ok x) /\ snd (ChkEx.dump o f) = None
  /\ ChkEx.load (fst (run (list Z) f (firstn n (dump_ops (list Z) "las" KEYS_CONFIG_LASSCF KEYS_RESULTS_LASSCF [42]%Z true o f)))) = Raise KeyError.
Proof.
  exists (fst (ChkEx.dump ChkEx.o1 [])), ChkEx.o1, 3%nat. split; [|split]; [|vm_compute; reflexivity..].
  eexists. vm_compute. reflexivity.
Qed.

Print Assumptions C36_las_round_trip.
Print Assumptions C36_lassis_round_trip.
Print Assumptions C37_other_records_partial.
Print Assumptions C37_own_record_partial.
Print Assumptions C37_refuted.
Print Assumptions C37_crash_refuted.
