(** Facts about checkpoint files. *)
From Coq Require Import List Arith Bool ZArith Lia String DecimalString DecimalZ.
From Verif Require Import Base BaseFacts ChkModel.
Import ListNotations.
Local Open Scope string_scope.
Local Open Scope list_scope.

Lemma pystr_inj a b : pystr a = pystr b -> a = b.
Proof.
  intros H. unfold pystr in H. apply (f_equal NilZero.int_of_string) in H.
  rewrite !NilZero.isi in H.
  - inversion H as [H1]. apply (f_equal Z.of_int) in H1. now rewrite !of_to in H1.
  - destruct b; cbn; try discriminate; pose proof (DecimalPos.Unsigned.to_uint_nonnil p); congruence.
  - destruct b; cbn; try discriminate; pose proof (DecimalPos.Unsigned.to_uint_nonnil p); congruence.
  - destruct a; cbn; try discriminate; pose proof (DecimalPos.Unsigned.to_uint_nonnil p); congruence.
  - destruct a; cbn; try discriminate; pose proof (DecimalPos.Unsigned.to_uint_nonnil p); congruence.
Qed.
Lemma nstr_inj a b : nstr a = nstr b -> a = b.
Proof. intros H%pystr_inj. lia. Qed.

Lemma path_eqb_eq p : forall q, path_eqb p q = true <-> p = q.
Proof.
  induction p as [|x p IH]; intros [|y q]; cbn; split; intros H; try easy.
  - apply andb_prop in H as [H1%String.eqb_eq H2%IH]. congruence.
  - injection H as -> ->. rewrite String.eqb_refl. now apply IH.
Qed.
Lemma is_prefix_iff p : forall q, is_prefix p q = true <-> exists r, q = p ++ r.
Proof.
  induction p as [|x p IH]; intros q; cbn.
  - split; eauto.
  - destruct q as [|y q]; [split; [easy | intros [r Hr]; discriminate]|].
    rewrite andb_true_iff, IH, String.eqb_eq. split.
    + intros [-> [r ->]]. now exists r.
    + intros [r [= -> ->]]. eauto.
Qed.
Lemma is_prefix_trans p q r : is_prefix p q = true -> is_prefix q r = true -> is_prefix p r = true.
Proof. rewrite !is_prefix_iff. intros [a ->] [b ->]. exists (a ++ b). now rewrite app_assoc. Qed.
Lemma is_prefix_refl p : is_prefix p p = true.
Proof. apply is_prefix_iff. exists []. now rewrite app_nil_r. Qed.

Section C.
Context {A : Type}.
Notation op := (op A). Notation file := (file A).

Definition tgt (o : op) : path := match o with Del _ k => [k] | MkGrp _ p => p | Put _ p _ => p end.
(** the entry an adding operation creates *)
Definition entry (o : op) (e : path * content A) : Prop :=
  match o with
  | Del _ _ => False
  | MkGrp _ p => e = (p, Grp A)
  | Put _ p None => False
  | Put _ p (Some a) => e = (p, Dat A a)
  end.
Definition ord (l : list op) : Prop := ForallOrdPairs (fun a b => is_prefix (tgt b) (tgt a) = false) l.
Definition under (p : path) (l : list op) : Prop := Forall (fun o => is_prefix p (tgt o) = true) l.

Lemma ord_app l1 l2 : ord l1 -> ord l2 ->
  (forall a b, In a l1 -> In b l2 -> is_prefix (tgt b) (tgt a) = false) -> ord (l1 ++ l2).
Proof.
  intros H1 H2 Hx. induction H1 as [|a l Ha Hl IH]; [exact H2|].
  cbn. constructor.
  - apply Forall_app. split; [exact Ha|]. apply Forall_forall. intros b Hb. apply Hx; [now left | exact Hb].
  - apply IH. intros x y Hx' Hy. apply Hx; [now right | exact Hy].
Qed.
Lemma under_app p l1 l2 : under p l1 -> under p l2 -> under p (l1 ++ l2).
Proof. intros; apply Forall_app; auto. Qed.
Lemma under_weaken p r l : under (p ++ r) l -> under p l.
Proof.
  apply Forall_impl. intros o. rewrite !is_prefix_iff. intros [s ->]. exists (r ++ s). now rewrite app_assoc.
Qed.
Lemma apart p x y a b : x <> y -> is_prefix (p ++ [x]) (tgt a) = true -> is_prefix (p ++ [y]) (tgt b) = true ->
  is_prefix (tgt b) (tgt a) = false.
Proof.
  intros Hn Ha Hb. destruct (is_prefix (tgt b) (tgt a)) eqn:E; [|reflexivity].
  pose proof (is_prefix_trans _ _ _ Hb E) as H. apply is_prefix_iff in H as [r Hr], Ha as [s Hs].
  rewrite Hs, <- !app_assoc in Hr. apply app_inv_head in Hr. cbn in Hr. congruence.
Qed.
Lemma ord_apart p x y l1 l2 : x <> y -> ord l1 -> ord l2 -> under (p ++ [x]) l1 -> under (p ++ [y]) l2 -> ord (l1 ++ l2).
Proof.
  intros Hn H1 H2 U1 U2. apply ord_app; auto. intros a b Ha Hb. unfold under in *.
  rewrite Forall_forall in U1, U2. eapply apart; eauto.
Qed.
Lemma forest {X} (key : X -> string) (child : X -> list op) p (l : list X) :
  NoDup (map key l) -> (forall x, In x l -> ord (child x) /\ under (p ++ [key x]) (child x)) ->
  ord (flat_map child l) /\ under p (flat_map child l).
Proof.
  intros Hn Hc. induction l as [|x l IH]; cbn.
  - split; constructor.
  - inversion Hn as [|? ? Hx Hl]; subst. destruct IH as [I1 I2]; [exact Hl | intros y Hy; apply Hc; now right|].
    destruct (Hc x (or_introl eq_refl)) as [C1 C2]. split.
    + apply ord_app; auto. intros a b Ha Hb. apply in_flat_map in Hb as (y & Hy & Hb).
      destruct (Hc y (or_intror Hy)) as [_ C3]. unfold under in *. rewrite Forall_forall in C2, C3.
      eapply apart; [| apply C2, Ha | apply C3, Hb].
      intros E. apply Hx. rewrite E. now apply in_map.
    + apply under_app; [eapply under_weaken, C2 | exact I2].
Qed.
Lemma leaves {X} (key : X -> string) (f : X -> op) p (l : list X) :
  NoDup (map key l) -> (forall x, tgt (f x) = p ++ [key x]) -> ord (map f l) /\ under p (map f l).
Proof.
  intros Hn Hf. replace (map f l) with (flat_map (fun x => [f x]) l).
  - apply (forest key); [exact Hn|]. intros x _. split; [repeat constructor|].
    constructor; [|constructor]. rewrite Hf. apply is_prefix_refl.
  - clear. induction l; cbn; congruence.
Qed.
Lemma grp p l : ord l -> (forall o, In o l -> exists x r, tgt o = p ++ x :: r) -> ord (MkGrp A p :: l) /\ under p (MkGrp A p :: l).
Proof.
  intros Ho Hl. split.
  - constructor; [|exact Ho]. apply Forall_forall. intros o Hi. destruct (Hl o Hi) as (x & r & E). cbn.
    destruct (is_prefix (tgt o) p) eqn:Ep; [|reflexivity]. apply is_prefix_iff in Ep as [s Hs].
    rewrite E in Hs. apply (f_equal (@List.length _)) in Hs. rewrite !app_length in Hs. cbn in Hs. lia.
  - constructor; [apply is_prefix_refl|]. apply Forall_forall. intros o Hi. destruct (Hl o Hi) as (x & r & E).
    rewrite E. apply is_prefix_iff. eauto.
Qed.
Lemma grp_forest {X} (key : X -> string) (child : X -> list op) p (l : list X) :
  NoDup (map key l) -> (forall x, In x l -> ord (child x) /\ under (p ++ [key x]) (child x)) ->
  ord (MkGrp A p :: flat_map child l) /\ under p (MkGrp A p :: flat_map child l).
Proof.
  intros Hn Hc. apply grp; [apply (forest key child p l Hn Hc)|].
  intros o Ho. apply in_flat_map in Ho as (x & Hx & Ho). destruct (Hc x Hx) as [_ U].
  unfold under in U. rewrite Forall_forall in U. specialize (U o Ho). apply is_prefix_iff in U as [r Hr].
  exists (key x), r. now rewrite Hr, <- app_assoc.
Qed.

(** ** Running a list of adding operations *)
Definition adding (o : op) : Prop := exists e, entry o e.
Lemma has_app p (f g : file) : has A p (f ++ g) = has A p f || has A p g.
Proof. unfold has. apply existsb_app. Qed.
Lemma run_adds l : forall f : file, ord l -> Forall adding l -> (forall o, In o l -> has A (tgt o) f = false) ->
  exists g, run A f l = (f ++ g, None) /\ Forall2 entry l g.
Proof.
  induction l as [|o l IH]; intros f Ho Ha Hf.
  - exists []. rewrite app_nil_r. split; [reflexivity | constructor].
  - inversion Ho as [|? ? Ho1 Ho2]; subst. inversion Ha as [|? ? [e He] Ha2]; subst.
    assert (S : step A f o = Ok (f ++ [e]) /\ tgt o = fst e).
    { pose proof (Hf o (or_introl eq_refl)) as Hh. destruct o as [k|p|p [a|]]; cbn in He, Hh |- *; try easy; subst e; now rewrite Hh. }
    destruct S as [S1 S2]. cbn [run]. rewrite S1.
    destruct (IH (f ++ [e]) Ho2 Ha2) as (g & G1 & G2).
    + intros o' Hi. rewrite has_app, (Hf o' (or_intror Hi)). cbn.
      rewrite Forall_forall in Ho1. rewrite <- S2. rewrite (Ho1 o' Hi). reflexivity.
    + exists (e :: g). rewrite <- app_assoc in G1. split; [exact G1 | now constructor].
Qed.
Lemma ord_entries l : forall g, ord l -> Forall2 entry l g -> ForallOrdPairs (fun a b => fst b <> fst a) g.
Proof.
  induction l as [|o l IH]; intros g Ho Hg; inversion Hg as [|? e ? g' He Hg']; subst; constructor.
  - inversion Ho as [|? ? Ho1 _]; subst. clear - He Hg' Ho1. induction Hg' as [|o' e' l g H' _ IH]; constructor.
    + inversion Ho1 as [|? ? Hp _]; subst. intros E.
      assert (tgt o' = tgt o) as E2.
      { destruct o as [|p|p [a|]], o' as [|p'|p' [a'|]]; cbn in He, H' |- *; try easy; subst; exact E. }
      rewrite E2, is_prefix_refl in Hp. discriminate.
    + apply IH. now inversion Ho1.
  - inversion Ho; subst. now apply IH.
Qed.
Lemma get_app_r p (f g : file) : has A p f = false -> get A p (f ++ g) = get A p g.
Proof.
  intros H. unfold get. induction f as [|e f IH]; [reflexivity|]. cbn in H |- *.
  apply orb_false_iff in H as [H1 H2]. destruct (path_eqb p (fst e)) eqn:E; [|now apply IH].
  apply path_eqb_eq in E. rewrite <- E, is_prefix_refl in H1. discriminate.
Qed.
Lemma get_in p a (g : file) : ForallOrdPairs (fun a b => fst b <> fst a) g -> In (p, Dat A a) g -> get A p g = Some a.
Proof.
  intros Hd Hi. unfold get. induction Hd as [|e g He Hg IH]; [easy|]. cbn. destruct Hi as [->|Hi].
  - cbn. now rewrite (proj2 (path_eqb_eq p p) eq_refl).
  - destruct (path_eqb p (fst e)) eqn:E; [|now apply IH]. apply path_eqb_eq in E.
    rewrite Forall_forall in He. now destruct (He _ Hi).
Qed.
Lemma get_none p (g : file) : (forall a, ~ In (p, Dat A a) g) -> get A p g = None.
Proof.
  intros H. unfold get. destruct (find _ g) as [[q [|a]]|] eqn:E; try reflexivity.
  apply find_some in E as [E1 E2]. cbn in E2. apply path_eqb_eq in E2. subst q. now destruct (H a).
Qed.
Lemma entry_in l g o e : Forall2 entry l g -> In o l -> entry o e -> In e g.
Proof.
  induction 1 as [|o' e' l g H _ IH]; intros Hi He; [easy|]. destruct Hi as [->|Hi]; [left|right; auto].
  destruct o as [k|p|p [a|]]; cbn in *; try easy; congruence.
Qed.
Lemma in_entry l g e : Forall2 entry l g -> In e g -> exists o, In o l /\ entry o e.
Proof.
  induction 1 as [|o' e' l g H _ IH]; intros Hi; [easy|]. destruct Hi as [->|Hi].
  - exists o'. split; [now left | exact H].
  - destruct (IH Hi) as (o & Ho & He). exists o. split; [now right | exact He].
Qed.
Lemma has_in p e (f : file) : In e f -> is_prefix p (fst e) = true -> has A p f = true.
Proof. intros. unfold has. apply existsb_exists. eauto. Qed.

(** ** A deletion *)
Definition without (k : string) (f : file) : file := filter (fun e => negb (is_prefix [k] (fst e))) f.
Lemma has_without k r f : has A (k :: r) (without k f) = false.
Proof.
  unfold has, without. destruct (existsb _ _) eqn:E; [|reflexivity].
  apply existsb_exists in E as (e & He & Hp). apply filter_In in He as [_ He].
  assert (is_prefix [k] (fst e) = true) by (eapply is_prefix_trans; [apply is_prefix_iff; exists r; reflexivity | exact Hp]).
  rewrite H in He. discriminate.
Qed.
Lemma has_false_under k r f : has A [k] f = false -> has A (k :: r) f = false.
Proof.
  unfold has. intros H. destruct (existsb (fun e => is_prefix (k :: r) (fst e)) f) eqn:E; [|reflexivity].
  apply existsb_exists in E as (e & He & Hp). rewrite <- H. symmetry. apply existsb_exists. exists e. split; [exact He|].
  eapply is_prefix_trans; [apply is_prefix_iff; exists r; reflexivity | exact Hp].
Qed.
Lemma run_app f l1 l2 : run A f (l1 ++ l2) = match run A f l1 with (g, None) => run A g l2 | (g, Some e) => (g, Some e) end.
Proof.
  revert f. induction l1 as [|o l IH]; intros f; [now destruct (run A f l2)|].
  cbn [run app]. destruct (step A f o) as [f'|e]; [apply IH | reflexivity].
Qed.

(** ** Enumerations *)
Lemma in_enum {X} (l : list X) i x : In (i, x) (enum l) <-> nth_error l i = Some x.
Proof.
  unfold enum. assert (G : forall s, In (i, x) (combine (seq s (List.length l)) l) <-> (s <= i)%nat /\ nth_error l (i - s) = Some x).
  { induction l as [|y l IH]; intros s; cbn.
    - split; [easy|]. intros [_ H]. destruct (i - s)%nat; discriminate.
    - rewrite IH. split.
      + intros [[= -> ->]|[H1 H2]]; [rewrite Nat.sub_diag; auto|]. split; [lia|].
        replace (i - s)%nat with (S (i - S s)) by lia. exact H2.
      + intros [H1 H2]. destruct (Nat.eq_dec s i) as [->|Hn].
        * rewrite Nat.sub_diag in H2. injection H2 as ->. now left.
        * right. split; [lia|]. replace (i - s)%nat with (S (i - S s)) in H2 by lia. exact H2. }
  rewrite G, Nat.sub_0_r. split; [tauto|]. split; [lia|assumption].
Qed.
Lemma enum_keys {X} (l : list X) : NoDup (map (fun ix => nstr (fst ix)) (enum l)).
Proof.
  unfold enum. rewrite <- map_map. 
  replace (map fst (combine (seq 0 (List.length l)) l)) with (seq 0 (List.length l)).
  - apply FinFun.Injective_map_NoDup; [intros x y; apply nstr_inj | apply seq_NoDup].
  - generalize 0%nat. induction l; intros s; cbn; [reflexivity | now rewrite <- IHl].
Qed.
Lemma seq_keys n : NoDup (map nstr (seq 0 n)).
Proof. apply FinFun.Injective_map_NoDup; [intros x y; apply nstr_inj | apply seq_NoDup]. Qed.
Lemma mapM_seq {X} (f : nat -> res X) (l : list X) :
  (forall i x, nth_error l i = Some x -> f i = Ok x) -> mapM f (seq 0 (List.length l)) = Ok l.
Proof.
  assert (G : forall s, (forall i x, nth_error l i = Some x -> f (s + i)%nat = Ok x) -> mapM f (seq s (List.length l)) = Ok l).
  { induction l as [|x l IH]; intros s H; [reflexivity|]. cbn.
    rewrite <- (Nat.add_0_r s) at 1. rewrite (H 0%nat x eq_refl). cbn. rewrite IH; [reflexivity|].
    intros i y Hi. replace (S s + i)%nat with (s + S i)%nat by lia. now apply H. }
  apply (G 0%nat).
Qed.
End C.
