(** C38, C39: encoding of nested values; reloading of fragment intermediates. *)
From Coq Require Import List Arith Bool ZArith Lia String Ascii DecimalString DecimalZ.
From Verif Require Import Base BaseFacts ChkModel ChkFacts EncModel.
Import ListNotations.
Local Open Scope string_scope.
Local Open Scope list_scope.

(** ** Text *)
Fixpoint no_char (c : ascii) (s : string) : Prop :=
  match s with EmptyString => True | String d s' => d <> c /\ no_char c s' end.
Lemma has_sub_skip c sub s t : no_char c s -> has_sub (String c sub) (s ++ t) = has_sub (String c sub) t.
Proof.
  induction s as [|d s IH]; [reflexivity|]. intros [Hd Hs]. change (String d s ++ t)%string with (String d (s ++ t)%string).
  cbn [has_sub]. rewrite IH by exact Hs. cbn [prefix]. destruct (ascii_dec c d); [congruence|]. reflexivity.
Qed.
Lemma no_char_app c s t : no_char c s -> no_char c t -> no_char c (s ++ t).
Proof. induction s; cbn; tauto. Qed.
Lemma uint_no_char c d : (forall x, In x ["0";"1";"2";"3";"4";"5";"6";"7";"8";"9"]%char -> x <> c) -> no_char c (NilEmpty.string_of_uint d).
Proof. intros H. induction d; cbn; try exact I; (split; [apply H; cbn; tauto | exact IHd]). Qed.
Lemma pystr_no_char c z : (forall x, In x ["0";"1";"2";"3";"4";"5";"6";"7";"8";"9";"-"]%char -> x <> c) -> no_char c (pystr z).
Proof.
  intros H. unfold pystr. assert (U : forall d, no_char c (NilZero.string_of_uint d)).
  { intros d. unfold NilZero.string_of_uint. destruct d; try (apply uint_no_char; intros; apply H; cbn in *; tauto).
    cbn. split; [apply H; cbn; tauto | exact I]. }
  destruct (Z.to_int z); cbn; [apply U|]. split; [apply H; cbn; tauto | apply U].
Qed.
Lemma pystr_dot z t : before_dot (pystr z ++ String "." t) = pystr z.
Proof.
  assert (N : no_char "." (pystr z)) by (apply pystr_no_char; cbn; intuition (subst; discriminate)).
  revert N. generalize (pystr z). induction s as [|d s IH]; intros N; [reflexivity|]. destruct N as [N1 N2].
  change (String d s ++ String "." t)%string with (String d (s ++ String "." t)%string). cbn [before_dot].
  destruct (Ascii.eqb_spec d "."); [contradiction|]. now rewrite IH.
Qed.
Lemma py_int_pystr z : py_int (pystr z) = Ok z.
Proof.
  unfold py_int, pystr. rewrite NilZero.isi; [now rewrite of_to| |]; destruct z; cbn; try discriminate;
  pose proof (DecimalPos.Unsigned.to_uint_nonnil p); congruence.
Qed.
Lemma pystr_us z : no_char "_" (pystr z).
Proof. apply pystr_no_char; cbn; intuition (subst; discriminate). Qed.
Lemma app_assoc_s a b c : ((a ++ b) ++ c = a ++ (b ++ c))%string.
Proof. induction a; cbn; congruence. Qed.
Lemma pystr_not_b z t : prefix "b'" (pystr z ++ String "." t) = false.
Proof.
  assert (N : no_char "b" (pystr z)) by (apply pystr_no_char; cbn; intuition (subst; discriminate)).
  destruct (pystr z) as [|c s]; [reflexivity|]. destruct N as [N _]. cbn [append prefix]. destruct (ascii_dec "b" c); [congruence|reflexivity].
Qed.
Lemma substring_all t : substring 0 (String.length t) t = t.
Proof. induction t; cbn; congruence. Qed.
Lemma strip_b t : (if prefix "b'" (String "b" (String "'" t)) then substring 2 (String.length (String "b" (String "'" t)) - 2) (String "b" (String "'" t)) else String "b" (String "'" t)) = t.
Proof. cbn [prefix]. destruct (ascii_dec "b" "b"); [|congruence]. destruct (ascii_dec "'" "'"); [|congruence]. destruct t; cbn [String.length Nat.sub substring]; [reflexivity|]. now rewrite substring_all. Qed.

Section V.
Context {A : Type}.
Notation val := (val A).

(** ** What comes back: a specification by recursion on values *)
Definition harmless (s : string) : Prop := has_sub "__from_None__" s = false /\ has_sub "__from_int__" s = false.
Inductive plain_key : key -> Prop :=
| pk_none : plain_key KNone
| pk_int z : plain_key (KInt z)
| pk_str s : harmless s -> plain_key (KStr s).
Inductive plain : val -> Prop :=
| p_none : plain (VNone A)
| p_int z : plain (VInt A z)
| p_str s : harmless (str_of_bytes s) -> plain (VStr A s)
| p_bytes s : harmless (str_of_bytes s) -> plain (VBytes A s)
| p_arr a : plain (VArr A a)
| p_list l : (forall x, In x l -> plain x) -> plain (VList A l)
| p_tuple l : (forall x, In x l -> plain x) -> plain (VTuple A l)
| p_dict l : NoDup (map fst l) -> (forall k x, In (k, x) l -> plain_key k /\ plain x) -> plain (VDict A l).
Fixpoint seen_as (v : val) : val :=
  match v with
  | VStr _ s => VBytes A s
  | VList _ l | VTuple _ l => VList A (map seen_as l)
  | VDict _ l => VDict A (map (fun kv => (fst kv, seen_as (snd kv))) l)
  | _ => v
  end.

Section Ind.
Variable P : val -> Prop.
Hypothesis Hleaf : forall v, match v with VList _ _ | VTuple _ _ | VGen _ _ | VDict _ _ => True | _ => P v end.
Hypothesis Hl : forall l, (forall x, In x l -> P x) -> P (VList A l).
Hypothesis Ht : forall l, (forall x, In x l -> P x) -> P (VTuple A l).
Hypothesis Hg : forall l, (forall x, In x l -> P x) -> P (VGen A l).
Hypothesis Hd : forall l, (forall k x, In (k, x) l -> P x) -> P (VDict A l).
Fixpoint val_ind' (v : val) : P v.
Proof.
  destruct v; try apply (Hleaf _).
  - exact (Hleaf (VNone A)).
  - exact (Hleaf (VInt A z)).
  - exact (Hleaf (VBool A b)).
  - exact (Hleaf (VStr A s)).
  - exact (Hleaf (VBytes A s)).
  - exact (Hleaf (VArr A a)).
  - apply Hl. revert l. fix IH 1. intros [|y l] x Hx; [destruct Hx|]. destruct Hx as [<-|Hx]; [apply val_ind' | exact (IH l x Hx)].
  - apply Ht. revert l. fix IH 1. intros [|y l] x Hx; [destruct Hx|]. destruct Hx as [<-|Hx]; [apply val_ind' | exact (IH l x Hx)].
  - apply Hg. revert l. fix IH 1. intros [|y l] x Hx; [destruct Hx|]. destruct Hx as [<-|Hx]; [apply val_ind' | exact (IH l x Hx)].
  - apply Hd. revert l. fix IH 1. intros [|[k' y] l] k x Hx; [destruct Hx|]. destruct Hx as [Hx|Hx]; [injection Hx as _ <-; apply val_ind' | exact (IH l k x Hx)].
Defined.
End Ind.

(** ** Keys *)
Lemma dec_enc_key k : plain_key k -> dec_key (enc_key k) = Ok k.
Proof.
  intros [|z|s [H1 H2]]; cbn [enc_key]; unfold dec_key.
  - reflexivity.
  - rewrite !has_sub_skip by apply pystr_us. change (has_sub "__from_None__" ".__from_int__") with false.
    change (has_sub "__from_int__" ".__from_int__") with true. cbv iota. unfold dec_text. cbv zeta.
    rewrite pystr_not_b, pystr_dot, py_int_pystr. reflexivity.
  - now rewrite H1, H2.
Qed.
Lemma enc_key_str k : exists s, enc_key k = KStr s.
Proof. destruct k; cbn; eauto. Qed.
Lemma key_eqb_plain k k' : plain_key k -> plain_key k' -> key_eqb k k' = true -> k = k'.
Proof.
  intros [|z|s _] [|z'|s' _]; cbn; intros H; try easy.
  - apply Z.eqb_eq in H. congruence.
  - apply String.eqb_eq in H. congruence.
Qed.
Lemma mk_dict_id (l : list (key * val)) : ForallOrdPairs (fun a b => key_eqb (fst b) (fst a) = false) l -> mk_dict A l = l.
Proof.
  intros H. unfold mk_dict.
  assert (S : forall (d : list (key * val)) k v, Forall (fun a => key_eqb k (fst a) = false) d -> dict_set A k v d = d ++ [(k, v)]).
  { induction d as [|[k' v'] d IH]; intros k v Hd; [reflexivity|]. inversion Hd as [|? ? H1 H2]; subst. cbn in H1 |- *. rewrite H1. now rewrite IH. }
  assert (G : forall d, (forall a b, In a d -> In b l -> key_eqb (fst b) (fst a) = false) ->
     fold_left (fun d kv => dict_set A (fst kv) (snd kv) d) l d = d ++ l).
  { induction H as [|[k v] l Ha Hl IH]; intros d Hd; cbn [fold_left].
    - now rewrite app_nil_r.
    - cbn [fst snd]. rewrite S by (apply Forall_forall; intros a Hi; apply (Hd a (k, v)); [exact Hi | now left]).
      rewrite IH.
      + now rewrite <- app_assoc.
      + intros a b Hi Hb. apply in_app_or in Hi as [Hi|[<-|[]]]; [apply Hd; [exact Hi | now right]|].
        rewrite Forall_forall in Ha. now apply (Ha b). }
  apply (G []). intros a b [].
Qed.
Lemma mk_dict_map (f : key -> key) (g : val -> val) (l : list (key * val)) : NoDup (map fst l) ->
  (forall k k' x x', In (k, x) l -> In (k', x') l -> key_eqb (f k) (f k') = true -> k = k') ->
  mk_dict A (map (fun kv => (f (fst kv), g (snd kv))) l) = map (fun kv => (f (fst kv), g (snd kv))) l.
Proof.
  intros Hn Hi. apply mk_dict_id. induction l as [|[k x] l IH]; cbn; constructor.
  - apply Forall_forall. intros [k1 x1] H1. apply in_map_iff in H1 as ([k2 x2] & [= <- <-] & H2). cbn [fst snd].
    destruct (key_eqb (f k2) (f k)) eqn:E; [|reflexivity]. inversion Hn as [|? ? Hk _]; subst. destruct Hk.
    rewrite <- (Hi k2 k x2 x); [| now right | now left | exact E]. now apply (in_map fst) in H2.
  - inversion Hn; subst. apply IH; auto. intros k1 k2 x1 x2 H1' H2'. apply (Hi k1 k2 x1 x2); now right.
Qed.

(** ** Lists *)
Fixpoint h5_list (l : list val) : res (list val) :=
  match l with [] => Ok [] | x :: r => bind (h5_value A x) (fun y => bind (h5_list r) (fun ys => Ok (y :: ys))) end.
Fixpoint h5_dict (l : list (key * val)) : res (list (key * val)) :=
  match l with
  | [] => Ok []
  | (KStr s, x) :: r => bind (h5_value A x) (fun y => bind (h5_dict r) (fun ys => Ok ((KStr s, y) :: ys)))
  | _ :: _ => Raise TypeError
  end.
Fixpoint dec_list (l : list val) : res (list val) :=
  match l with [] => Ok [] | x :: r => bind (dec A x) (fun y => bind (dec_list r) (fun ys => Ok (y :: ys))) end.
Fixpoint dec_dict (l : list (key * val)) : res (list (key * val)) :=
  match l with
  | [] => Ok []
  | (k, x) :: r => bind (dec_key k) (fun k' => bind (dec A x) (fun y => bind (dec_dict r) (fun ys => Ok ((k', y) :: ys))))
  end.
Lemma h5_vlist l : h5_value A (VList A l) = bind (h5_list l) (fun l' => Ok (VList A l')).
Proof. reflexivity. Qed.
Lemma h5_vgen l : h5_value A (VGen A l) = bind (h5_list l) (fun l' => Ok (VList A l')).
Proof. reflexivity. Qed.
Lemma h5_vdict l : h5_value A (VDict A l) = bind (h5_dict l) (fun l' => Ok (VDict A l')).
Proof. reflexivity. Qed.
Lemma dec_vlist l : dec A (VList A l) = bind (dec_list l) (fun l' => Ok (VList A l')).
Proof. reflexivity. Qed.
Lemma dec_vdict l : dec A (VDict A l) = bind (dec_dict l) (fun l' => Ok (VDict A (mk_dict A l'))).
Proof. reflexivity. Qed.
Definition good (v : val) : Prop := exists w, h5_value A (enc A v) = Ok w /\ dec A w = Ok (seen_as v).
Lemma list_good l : (forall x, In x l -> good x) -> exists l', h5_list (map (enc A) l) = Ok l' /\ dec_list l' = Ok (map seen_as l).
Proof.
  induction l as [|x l IH]; intros H; [now exists []|].
  destruct (H x (or_introl eq_refl)) as (w & W1 & W2). destruct IH as (l' & L1 & L2); [intros; apply H; now right|].
  exists (w :: l'). cbn [map h5_list dec_list]. now rewrite W1, L1, W2, L2.
Qed.

(** C38: the exact value that is read back.  Tuples come back as lists, text as bytes; None, integers,
    arrays, lists and dictionaries come back as they were. *)
Theorem C38_round_trip_partial v : plain v -> round_trip A v = Ok (seen_as v).
Proof.
  intros Hp. assert (good v) as (w & W1 & W2); [|unfold round_trip; now rewrite W1].
  revert v Hp. apply (val_ind' (fun v => plain v -> good v)); [intros v|intros l IH..].
  - destruct v; try exact I; intros Hp; unfold good; cbn [enc enc_leaf].
    + eexists. split; [reflexivity|]. reflexivity.
    + eexists. split; [reflexivity|]. cbn [dec dec_leaf seen_as]. unfold str_of_bytes.
      rewrite app_assoc_s. change (String.append "b'" (pystr z ++ ".__from_int__" ++ "'"))%string with (String "b" (String "'" (pystr z ++ ".__from_int__'")))%string.
      set (t := (pystr z ++ ".__from_int__'")%string).
      assert (E : forall c, has_sub (String "_" c) (String "b" (String "'" t)) = has_sub (String "_" c) ".__from_int__'").
      { intros c. change (String "b" (String "'" t)) with (String.append "b'" t). rewrite has_sub_skip by (cbn; repeat split; discriminate).
        unfold t. now rewrite has_sub_skip by apply pystr_us. }
      rewrite !E. change (has_sub "__from_None__" ".__from_int__'") with false. change (has_sub "__from_int__" ".__from_int__'") with true.
      cbv iota. unfold dec_text. cbv zeta. rewrite strip_b. unfold t. rewrite pystr_dot, py_int_pystr. reflexivity.
    + inversion Hp.
    + inversion Hp as [| |? [H1 H2]| | | | |]; subst. eexists. split; [reflexivity|]. cbn [dec dec_leaf seen_as]. now rewrite H1, H2.
    + inversion Hp as [| | |? [H1 H2]| | | |]; subst. eexists. split; [reflexivity|]. cbn [dec dec_leaf seen_as]. now rewrite H1, H2.
    + eexists. split; reflexivity.
  - intros Hp. inversion Hp as [| | | | |? Hx| |]; subst.
    destruct (list_good l) as (l' & L1 & L2); [intros x Hi; apply IH; auto|].
    exists (VList A l'). cbn [enc seen_as]. rewrite h5_vlist, L1, dec_vlist, L2. now split.
  - intros Hp. inversion Hp as [| | | | | |? Hx|]; subst.
    destruct (list_good l) as (l' & L1 & L2); [intros x Hi; apply IH; auto|].
    exists (VList A l'). cbn [enc seen_as]. rewrite h5_vgen, L1, dec_vlist, L2. now split.
  - intros Hp. inversion Hp.
  - intros Hp. inversion Hp as [| | | | | | |? Hn Hx]; subst. cbn [enc seen_as].
    change (map (fun kv => (enc_key (fst kv), enc A (snd kv))) l) with (map (fun kv => (enc_key (fst kv), (enc A) (snd kv))) l).
    unfold good. cbn [enc]. rewrite mk_dict_map; auto.
    2:{ intros k k' x x' H1 H2 E. destruct (Hx _ _ H1) as [P1 _], (Hx _ _ H2) as [P2 _].
        apply dec_enc_key in P1, P2. destruct (enc_key_str k) as [s Es], (enc_key_str k') as [s' Es']. rewrite Es, Es' in E. cbn in E.
        apply String.eqb_eq in E. subst s'. rewrite Es in P1. rewrite Es' in P2. congruence. }
    assert (L : exists l', h5_dict (map (fun kv => (enc_key (fst kv), enc A (snd kv))) l) = Ok l'
        /\ dec_dict l' = Ok (map (fun kv => (fst kv, seen_as (snd kv))) l)).
    { clear Hn Hp. induction l as [|[k x] l IHl]; [now exists []|].
      destruct (Hx k x (or_introl eq_refl)) as [Pk Px]. destruct (IH k x (or_introl eq_refl) Px) as (w & W1 & W2).
      destruct IHl as (l' & L1 & L2); [intros; eapply IH; [right; eauto | auto] | intros; apply Hx; now right|].
      apply dec_enc_key in Pk. destruct (enc_key_str k) as [s Es]. rewrite Es in Pk.
      exists ((KStr s, w) :: l'). cbn [map fst snd h5_dict dec_dict]. rewrite Es. cbn [h5_dict]. now rewrite W1, L1, Pk, W2, L2. }
    destruct L as (l' & L1 & L2). exists (VDict A l'). rewrite h5_vdict, L1. split; [reflexivity|]. rewrite dec_vdict, L2. cbn [bind seen_as].
    f_equal. f_equal. apply (mk_dict_map (fun k => k) seen_as); auto. intros k k' x x' H1 H2. apply key_eqb_plain; [apply (Hx _ _ H1) | apply (Hx _ _ H2)].
Qed.

(** hence values built from None, integers, bytes, arrays, lists and dictionaries are restored exactly *)
Inductive exact : val -> Prop :=
| e_none : exact (VNone A)
| e_int z : exact (VInt A z)
| e_arr a : exact (VArr A a)
| e_list l : (forall x, In x l -> exact x) -> exact (VList A l)
| e_dict l : NoDup (map fst l) -> (forall k x, In (k, x) l -> plain_key k /\ exact x) -> exact (VDict A l).
Theorem C38_exact_partial v : exact v -> round_trip A v = Ok v.
Proof.
  intros He. assert (plain v /\ seen_as v = v) as [Hp E]; [|rewrite C38_round_trip_partial by exact Hp; now rewrite E].
  revert v He. apply (val_ind' (fun v => exact v -> plain v /\ seen_as v = v)); [intros v|intros l IH..].
  - destruct v; try exact I; intros He; inversion He; subst; split; constructor.
  - intros He. inversion He as [| | |? Hx|]; subst. split; [constructor; intros x Hi; apply (IH x Hi (Hx x Hi))|].
    cbn [seen_as]. f_equal. rewrite <- (map_id l) at 2. apply map_ext_in. intros x Hi. apply (IH x Hi (Hx x Hi)).
  - intros He; inversion He.
  - intros He; inversion He.
  - intros He. inversion He as [| | | |? Hn Hx]; subst. split.
    + constructor; [exact Hn|]. intros k x Hi. destruct (Hx k x Hi) as [H1 H2]. split; [exact H1 | apply (IH k x Hi H2)].
    + cbn [seen_as]. f_equal. rewrite <- (map_id l) at 2. apply map_ext_in. intros [k x] Hi. cbn. f_equal. apply (IH k x Hi), (Hx k x Hi).
Qed.
End V.

Example C38_example :
  round_trip Z (VDict Z [(KInt (-3), VList Z [VNone Z; VInt Z 12; VArr Z 7%Z]); (KNone, VTuple Z [VInt Z 0]); (KStr "x", VStr Z "abc")])
  = Ok (VDict Z [(KInt (-3), VList Z [VNone Z; VInt Z 12; VArr Z 7%Z]); (KNone, VList Z [VInt Z 0]); (KStr "x", VBytes Z "abc")]).
Proof. vm_compute. reflexivity. Qed.
(** tuples and text come back as something else, and a stored boolean cannot be read at all *)
Theorem C38_refuted :
  (exists v w, round_trip Z v = Ok w /\ v = VTuple Z [VInt Z 1; VInt Z 2] /\ w = VList Z [VInt Z 1; VInt Z 2])
  /\ (exists s, round_trip Z (VStr Z s) = Ok (VBytes Z s) /\ s <> "")
  /\ (forall b, round_trip Z (VBool Z b) = Raise ValueError)
  /\ (exists s, round_trip Z (VStr Z s) = Ok (VNone Z)).
Proof.
  split; [|split; [|split]].
  - exists (VTuple Z [VInt Z 1; VInt Z 2]). eexists. split; [vm_compute; reflexivity | split; reflexivity].
  - exists "abc". split; [vm_compute; reflexivity | discriminate].
  - intros [|]; vm_compute; reflexivity.
  - exists "a__from_None__". vm_compute. reflexivity.
Qed.

(** C39: the intermediates are never reused, however identical the configuration: the stored dtype
    comes back as bytes and never equals a text; and if it did come back as text, the loop over the
    loaded fields would raise. *)
Theorem C39_refuted : exists dtype mine,
  (* what load returns for the text that dump_chk stored *)
  bind (round_trip Z (VStr Z dtype)) (fun v => load_chk Z dtype v mine) = Ok false
  /\ load_chk Z dtype (VStr Z dtype) mine = Raise ValueError
  /\ (forall k v, mine k v = true).
Proof.
  exists "<class 'float'>", (fun _ _ => true). repeat split.
Qed.
Theorem C39_never_loads {A} dtype (stored : val A) mine : load_chk A dtype stored mine <> Ok true.
Proof.
  unfold load_chk. destruct (negb (text_eq A dtype stored)); [discriminate|]. cbn. discriminate.
Qed.
Example C39_example : load_chk Z "float" (VBytes Z "float") (fun _ _ => true) = Ok false
  /\ load_chk Z "float" (VNone Z) (fun _ _ => true) = Ok false.
Proof. split; reflexivity. Qed.

Print Assumptions C38_round_trip_partial.
Print Assumptions C38_exact_partial.
Print Assumptions C38_refuted.
Print Assumptions C39_refuted.
Print Assumptions C39_never_loads.
