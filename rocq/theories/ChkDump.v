(** What a completed write leaves in the file, and what loading reads back. *)
From Coq Require Import List Arith Bool ZArith Lia String.
From Verif Require Import Base BaseFacts ChkModel ChkFacts.
Import ListNotations.
Local Open Scope string_scope.
Local Open Scope list_scope.

Section C.
Context {A : Type}.
Variable len : option A -> nat.
Variable zero mol : A.
Notation op := (op A). Notation file := (file A).
Notation get := (get A). Notation has := (has A). Notation run := (run A).

Definition prelim_ops (ow : bool) (m : string) (f : file) : list op :=
  (if negb (has ["mol"] f) then [Put A ["mol"] (Some mol)]
   else if ow then [Del A "mol"; Put A ["mol"] (Some mol)] else [])
  ++ (if has [m] f then [Del A m] else []).
Lemma chkdata_split ow m f : chkdata_ops A mol ow m f = prelim_ops ow m f ++ [MkGrp A [m]].
Proof. unfold chkdata_ops, prelim_ops. now rewrite <- app_assoc. Qed.

Definition same_at (k : string) (f g : file) : Prop := forall r, get (k :: r) f = get (k :: r) g /\ has (k :: r) f = has (k :: r) g.
Lemma same_trans k f g h : same_at k f g -> same_at k g h -> same_at k f h.
Proof. intros H1 H2 r. destruct (H1 r) as [-> ->]. apply H2. Qed.
Lemma same_without k k' f : k <> k' -> same_at k f (without k' f).
Proof.
  intros Hn r. unfold same_at, get, ChkModel.get, ChkModel.has, without.
  assert (P : forall e : path * content A, is_prefix (k :: r) (fst e) = true -> is_prefix [k'] (fst e) = false).
  { intros e He. apply is_prefix_iff in He as [s Hs]. rewrite Hs. cbn. destruct (String.eqb_spec k' k); [congruence|reflexivity]. }
  split.
  - assert (E : find (fun e => path_eqb (k :: r) (fst e)) f
              = find (fun e => path_eqb (k :: r) (fst e)) (filter (fun e => negb (is_prefix [k'] (fst e))) f)).
    { induction f as [|e f IH]; [reflexivity|]. cbn [find filter].
      destruct (path_eqb (k :: r) (fst e)) eqn:E1.
      - rewrite (P e); [cbn [negb find]; now rewrite E1|]. apply path_eqb_eq in E1. rewrite <- E1. apply is_prefix_refl.
      - destruct (negb _); [cbn [find]; rewrite E1|]; exact IH. }
    now rewrite <- E.
  - induction f as [|e f IH]; [reflexivity|]. cbn [existsb filter].
    destruct (is_prefix (k :: r) (fst e)) eqn:E1.
    + rewrite (P e E1). cbn [negb existsb]. now rewrite E1.
    + destruct (negb _); [cbn [existsb]; rewrite E1|]; exact IH.
Qed.
Lemma same_snoc k f e : (forall r, is_prefix (k :: r) (fst e) = false) -> same_at k f (f ++ [e]).
Proof.
  intros He r. split.
  - unfold get, ChkModel.get. induction f as [|e' f IH]; cbn [app find].
    + destruct (path_eqb (k :: r) (fst e)) eqn:E; [|reflexivity]. apply path_eqb_eq in E.
      specialize (He r). rewrite <- E, is_prefix_refl in He. discriminate.
    + destruct (path_eqb (k :: r) (fst e')); [reflexivity | exact IH].
  - rewrite has_app. unfold ChkModel.has at 3. cbn [existsb]. rewrite He. now rewrite !orb_false_r.
Qed.
Lemma has_mol_put k r f : k <> "mol" -> has (k :: r) (f ++ [(["mol"], Dat A mol)]) = has (k :: r) f.
Proof.
  intros Hk. rewrite has_app. cbn [ChkModel.has existsb fst is_prefix].
  destruct (String.eqb_spec k "mol"); [contradiction|]. cbn. now rewrite orb_false_r.
Qed.
Lemma put_mol_ok f : has ["mol"] f = false -> run f [Put A ["mol"] (Some mol)] = (f ++ [(["mol"], Dat A mol)], None).
Proof. intros H. cbn. now rewrite H. Qed.
Lemma prelim_run ow m f : m <> "mol" ->
  exists f0, run f (prelim_ops ow m f) = (f0, None) /\ has [m] f0 = false
   /\ (forall k, k <> m -> k <> "mol" -> same_at k f f0).
Proof.
  intros Hm. unfold prelim_ops.
  assert (S1 : exists f1, run f (if negb (has ["mol"] f) then [Put A ["mol"] (Some mol)]
     else if ow then [Del A "mol"; Put A ["mol"] (Some mol)] else []) = (f1, None) /\ (forall k, k <> "mol" -> same_at k f f1)).
  { destruct (has ["mol"] f) eqn:E; cbn [negb].
    - destruct ow.
      + exists (without "mol" f ++ [(["mol"], Dat A mol)]). split.
        * cbn [ChkModel.run step]. rewrite E. fold (without "mol" f). now rewrite has_without.
        * intros k Hk. eapply same_trans; [apply same_without, Hk|]. apply same_snoc. intros r. cbn.
          destruct (String.eqb_spec k "mol"); [contradiction|reflexivity].
      + exists f. split; [reflexivity|]. intros k _ r; auto.
    - exists (f ++ [(["mol"], Dat A mol)]). split; [now apply put_mol_ok|].
      intros k Hk. apply same_snoc. intros r. cbn. destruct (String.eqb_spec k "mol"); [contradiction|reflexivity]. }
  destruct S1 as (f1 & R1 & K1).
  rewrite run_app, R1. destruct (K1 m Hm []) as [_ Hh]. destruct (has [m] f) eqn:E.
  - exists (without m f1). cbn [ChkModel.run step]. rewrite <- Hh. split; [reflexivity|]. split; [apply has_without|].
    intros k Hk Hk2. eapply same_trans; [apply K1, Hk2|]. now apply same_without.
  - exists f1. split; [reflexivity|]. split; [now symmetry|]. intros k _ Hk. now apply K1.
Qed.

(** a completed write: everything that was put can be read, and nothing else is in the record *)
Lemma written ow m f l : m <> "mol" ->
  ord (MkGrp A [m] :: l) -> under [m] l -> Forall adding l ->
  exists F, run f (chkdata_ops A mol ow m f ++ l) = (F, None)
   /\ has [m] F = true
   /\ (forall p a, In (Put A (m :: p) (Some a)) l -> get (m :: p) F = Some a)
   /\ (forall p, (forall a, ~ In (Put A (m :: p) (Some a)) l) -> get (m :: p) F = None)
   /\ (forall p o, In o l -> is_prefix (m :: p) (tgt o) = true -> has (m :: p) F = true)
   /\ (forall x p, (forall o, In o l -> is_prefix (m :: x :: p) (tgt o) = false) -> has (m :: x :: p) F = false)
   /\ (forall k, k <> m -> k <> "mol" -> same_at k f F).
Proof.
  intros Hm Ho Hu Ha. destruct (prelim_run ow m f Hm) as (f0 & R0 & H0 & K0).
  assert (U : forall o, In o (MkGrp A [m] :: l) -> exists r, tgt o = m :: r).
  { intros o [<-|Hi]; [now exists []|]. unfold under in Hu. rewrite Forall_forall in Hu. specialize (Hu o Hi).
    apply is_prefix_iff in Hu as [r Hr]. now exists r. }
  destruct (run_adds (MkGrp A [m] :: l) f0 Ho) as (g & R & G).
  { constructor; [now exists ([m], Grp A) | exact Ha]. }
  { intros o Hi. destruct (U o Hi) as [r ->]. now apply has_false_under. }
  pose proof (ord_entries _ _ Ho G) as D.
  assert (B : forall r, has (m :: r) f0 = false) by (intros r; now apply has_false_under).
  exists (f0 ++ g). repeat split.
  - rewrite chkdata_split, <- app_assoc, run_app, R0. exact R.
  - rewrite has_app. rewrite H0. cbn [orb]. inversion G as [|? e ? g' He _]; subst. cbn in He. subst e. cbn. now rewrite String.eqb_refl.
  - intros p a Hi. rewrite get_app_r by apply B. apply get_in; [exact D|].
    apply (entry_in _ _ (Put A (m :: p) (Some a)) _ G); [now right | reflexivity].
  - intros p Hi. rewrite get_app_r by apply B. apply get_none. intros a H.
    destruct (in_entry _ _ _ G H) as (o & Hi' & He). destruct Hi' as [<-|Hi']; [cbn in He; discriminate|].
    destruct o as [k|q|q [b|]]; cbn in He; try easy. injection He as E1 E2. subst. now apply (Hi b).
  - intros p o Hi Hp. rewrite has_app, B. cbn [orb]. rewrite Forall_forall in Ha. destruct (Ha o Hi) as [e He].
    apply (has_in _ e); [apply (entry_in _ _ o _ G); [now right | exact He]|].
    replace (fst e) with (tgt o); [exact Hp|]. destruct o as [k|q|q [b|]]; cbn in He; try easy; subst e; reflexivity.
  - intros x p Hi. rewrite has_app, B. cbn [orb]. destruct (has (m :: x :: p) g) eqn:E; [|reflexivity].
    unfold ChkModel.has in E. apply existsb_exists in E as (e & He & Hp).
    destruct (in_entry _ _ _ G He) as (o & Hi' & He').
    assert (fst e = tgt o) as Et by (destruct o as [k|q|q [b|]]; cbn in He'; try easy; subst e; reflexivity).
    rewrite Et in Hp. destruct Hi' as [<-|Hi'].
    + cbn in Hp. now rewrite String.eqb_refl in Hp.
    + now rewrite (Hi o Hi') in Hp.
  - destruct (K0 k H H1 r) as [-> _]. unfold get, ChkModel.get.
    assert (N : forall e, In e g -> exists s, fst e = m :: s).
    { intros e He. destruct (in_entry _ _ _ G He) as (o & Hi' & He'). destruct (U o Hi') as [s Hs]. exists s. rewrite <- Hs.
      destruct o as [k'|q|q [b|]]; cbn in He'; try easy; subst e; reflexivity. }
    clear - N H. induction f0 as [|e f0 IH]; cbn [app find].
    + destruct (find _ g) as [e|] eqn:E; [|reflexivity]. apply find_some in E as [E1 E2].
      destruct (N e E1) as [s Hs]. apply path_eqb_eq in E2. congruence.
    + destruct (path_eqb (k :: r) (fst e)); [reflexivity | exact IH].
  - destruct (K0 k H H1 r) as [_ ->]. rewrite has_app.
    assert (has (k :: r) g = false) as ->; [|now rewrite orb_false_r].
    destruct (has (k :: r) g) eqn:E; [|reflexivity]. unfold ChkModel.has in E. apply existsb_exists in E as (e & He & Hp).
    destruct (in_entry _ _ _ G He) as (o & Hi' & He'). destruct (U o Hi') as [s Hs].
    replace (fst e) with (tgt o) in Hp by (destruct o as [k'|q|q [b|]]; cbn in He'; try easy; subst e; reflexivity).
    rewrite Hs in Hp. cbn in Hp. destruct (String.eqb_spec k m); [contradiction|]. discriminate.
Qed.
End C.
