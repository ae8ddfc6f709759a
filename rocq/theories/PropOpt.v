(** Property C42: shrinking groups of cached operators. *)
From Coq Require Import List Arith Bool ZArith Lia.
From Verif Require Import Base BaseFacts OptModel.
Import ListNotations.
Local Open Scope Z_scope.

(** Specification, for the operators the cache holds: every one has a spin case, all spin cases of an
    operator change the electron numbers in the same way (they belong to the same spin manifolds, C41)
    and the total number of electrons is conserved. *)
Definition dne (ne : nat -> nat -> Z) (f : nat) (k : okey) : Z := ne f (fst (fst k)) - ne f (snd (fst k)).
Fixpoint total (f : nat -> Z) (l : list nat) : Z := match l with [] => 0 | x :: l => f x + total f l end.
Record cached (ne : nat -> nat -> Z) (o : opt) : Prop := {
  c_keys : o_keys o <> [];
  c_same : forall k k' f, In k (o_keys o) -> In k' (o_keys o) -> In f (o_ints o) -> dne ne f k = dne ne f k';
  c_cons : forall k, In k (o_keys o) -> total (fun f => dne ne f k) (o_ints o) = 0 }.
Definition moves_no_electron (ne : nat -> nat -> Z) (o : opt) : Prop :=
  forall k f, In k (o_keys o) -> In f (o_ints o) -> dne ne f k = 0.
(** [l'] is [l] without the elements that fail [P], in the same order *)
Inductive keeps {X} (P : X -> Prop) : list X -> list X -> Prop :=
| keeps_nil : keeps P [] []
| keeps_yes x l l' : P x -> keeps P l l' -> keeps P (x :: l) (x :: l')
| keeps_no x l l' : ~ P x -> keeps P l l' -> keeps P (x :: l) l'.

Lemma total_nonpos f l : (forall x, In x l -> f x <= 0) -> total f l = 0 -> forall x, In x l -> f x = 0.
Proof.
  induction l as [|a l IH]; intros H0 Ht x Hx; [easy|]. cbn in Ht.
  assert (total f l <= 0). { assert (forall l, (forall x, In x l -> f x <= 0) -> total f l <= 0) as W.
    { clear. induction l as [|b l IH]; intros H; cbn; [lia|]. pose proof (H b (or_introl eq_refl)). specialize (IH (fun x h => H x (or_intror h))). lia. }
    apply W. intros; apply H0; now right. }
  pose proof (H0 a (or_introl eq_refl)). destruct Hx as [<-|Hx]; [lia|]. apply IH; auto; [intros; apply H0; now right | lia].
Qed.
Lemma op_neutral_spec ne o : cached ne o -> exists b, op_neutral ne o = Ok b /\ (b = true <-> moves_no_electron ne o).
Proof.
  intros [H1 H2 H3]. unfold op_neutral. destruct (o_keys o) as [|[[bra ket] fr] ks] eqn:E; [contradiction|].
  eexists. split; [reflexivity|]. unfold moves_no_electron. rewrite E. rewrite forallb_forall. split.
  - intros H k f Hk Hf. rewrite (H2 k (bra, ket, fr) f Hk (or_introl eq_refl) Hf).
    apply (total_nonpos (fun f => dne ne f (bra, ket, fr)) (o_ints o)); auto; [|apply H3; now left].
    intros x Hx. specialize (H x Hx). apply negb_true_iff, Z.ltb_ge in H. exact H.
  - intros H f Hf. specialize (H (bra, ket, fr) f (or_introl eq_refl) Hf). unfold dne in H. cbn in H. apply negb_true_iff, Z.ltb_ge. lia.
Qed.

Theorem C42_neutral_only : forall ne g, (forall o, In o (g_ops g) -> cached ne o) ->
  exists ops, keeps (moves_no_electron ne) (g_ops g) ops /\
  neutral_only ne g = Ok (match ops with [] => None | _ => Some (mkGroup (g_inv g) ops (g_link g)) end).
Proof.
  intros ne g H. unfold neutral_only.
  assert (W : forall l, (forall o, In o l -> cached ne o) -> exists ops, keeps (moves_no_electron ne) l ops /\
    exists ll, mapM (fun o => bind (op_neutral ne o) (fun b => Ok (if b then [o] else []))) l = Ok ll /\ concat ll = ops).
  { induction l as [|o l IH]; intros Hl; [exists []; split; [constructor|]; exists []; split; reflexivity|].
    destruct (IH (fun o h => Hl o (or_intror h))) as (ops & K & ll & E & C).
    destruct (op_neutral_spec ne o (Hl o (or_introl eq_refl))) as (b & Eb & Hb). cbn. rewrite Eb. cbn. rewrite E. cbn.
    destruct b.
    - exists (o :: ops). split; [constructor; [now apply Hb | exact K]|]. exists ([o] :: ll). split; [reflexivity|]. cbn. now rewrite C.
    - exists ops. split; [apply keeps_no; [intros X; apply Hb in X; discriminate | exact K]|]. exists ([] :: ll). split; [reflexivity | exact C]. }
  destruct (W (g_ops g) H) as (ops & K & ll & E & C). exists ops. split; [exact K|]. rewrite E. cbn. rewrite C. destruct ops; reflexivity.
Qed.
Print Assumptions C42_neutral_only.

(** get_neutral: one- and two-fragment groups are filtered this way, larger ones and empty ones dropped *)
Theorem C42_get_neutral : forall ne gs, (forall g o, In g gs -> In o (g_ops g) -> cached ne o) ->
  exists gs', get_neutral ne gs = Ok gs' /\
  (forall g', In g' gs' <-> exists g ops, In g gs /\ (length (g_inv g) < 3)%nat /\ keeps (moves_no_electron ne) (g_ops g) ops
     /\ ops <> [] /\ g' = mkGroup (g_inv g) ops (g_link g)).
Proof.
  intros ne gs. unfold get_neutral. induction gs as [|g gs IH]; intros H.
  - exists []. split; [reflexivity|]. intros g'. split; [easy | intros (g & _ & [] & _)].
  - destruct (IH (fun g' o h => H g' o (or_intror h))) as (gs' & E & S). clear IH.
    destruct (mapM _ gs) as [ll|] eqn:Em; [|discriminate]. cbn [bind] in E. injection E as <-.
    destruct (C42_neutral_only ne g (fun o => H g o (or_introl eq_refl))) as (ops & K & En).
    assert (U : forall ops', keeps (moves_no_electron ne) (g_ops g) ops' -> ops' = ops).
    { clear -K. revert ops K. induction (g_ops g) as [|o l IH]; intros ops K ops' K'; inversion K; subst; inversion K'; subst; try contradiction; auto. f_equal. now apply IH. }
    cbn [mapM]. destruct (Nat.ltb_spec (length (g_inv g)) 3) as [L|L].
    + rewrite En. cbn [bind]. rewrite Em. cbn [bind]. eexists. split; [reflexivity|]. intros g'. cbn. destruct ops as [|o ops].
      * cbn. rewrite S. split; intros (g0 & ops0 & Hg & R); exists g0, ops0; [split; [now right | exact R]|].
        destruct Hg as [<-|Hg]; [|split; [exact Hg | exact R]]. destruct R as (_ & K0 & N & _). now apply U in K0.
      * cbn. rewrite S. split.
        -- intros [<-|(g0 & ops0 & Hg & R)]; [exists g, (o :: ops) | exists g0, ops0].
           ++ repeat split; auto. discriminate.
           ++ split; [now right | exact R].
        -- intros (g0 & ops0 & [<-|Hg] & R); [left | right; exists g0, ops0; split; [exact Hg | exact R]].
           destruct R as (_ & K0 & _ & ->). apply U in K0. now subst.
    + cbn [bind]. rewrite Em. cbn [bind]. eexists. split; [reflexivity|]. intros g'. cbn [concat app]. rewrite S. split; intros (g0 & ops0 & Hg & R); exists g0, ops0.
      * split; [now right | exact R].
      * destruct Hg as [<-|Hg]; [destruct R; lia | split; [exact Hg | exact R]].
Qed.
Print Assumptions C42_get_neutral.

(** Projection: an operator with spin case k survives exactly if k is in the subspace; no operator is left
    without spin cases and no group without operators *)
Theorem C42_subspace : forall keys g,
  match subspace keys g with
  | None => forall o k, In o (g_ops g) -> In k (o_keys o) -> keys k = false
  | Some g' => g_inv g' = g_inv g /\ g_ops g' <> [] /\ (forall o, In o (g_ops g') -> o_keys o <> []) /\
      forall fr a k, (exists o, In o (g_ops g') /\ o_ints o = fr /\ o_arr o = a /\ In k (o_keys o))
        <-> keys k = true /\ exists o, In o (g_ops g) /\ o_ints o = fr /\ o_arr o = a /\ In k (o_keys o)
  end.
Proof.
  intros keys g. unfold subspace.
  set (F := fun o => match filter keys (o_keys o) with [] => [] | ks => [mkOpt (o_ints o) ks (o_arr o)] end).
  assert (W : forall o', In o' (flat_map F (g_ops g)) <-> exists o, In o (g_ops g) /\ filter keys (o_keys o) <> [] /\ o' = mkOpt (o_ints o) (filter keys (o_keys o)) (o_arr o)).
  { intros o'. rewrite in_flat_map. unfold F. split.
    - intros (o & Ho & H). destruct (filter keys (o_keys o)) as [|k ks] eqn:E; [easy|]. destruct H as [<-|[]]. exists o. rewrite E. repeat split; auto. discriminate.
    - intros (o & Ho & H & ->). exists o. split; [exact Ho|]. destruct (filter keys (o_keys o)); [contradiction | now left]. }
  assert (V : forall o k, In o (g_ops g) -> In k (o_keys o) -> keys k = true -> exists o', In o' (flat_map F (g_ops g)) /\ o_ints o' = o_ints o /\ o_arr o' = o_arr o /\ In k (o_keys o')).
  { intros o k Ho Hk Hc. exists (mkOpt (o_ints o) (filter keys (o_keys o)) (o_arr o)). cbn.
    assert (In k (filter keys (o_keys o))) as Hf by (apply filter_In; auto). repeat split; auto. apply W. exists o. repeat split; auto. intros X. now rewrite X in Hf. }
  destruct (flat_map F (g_ops g)) as [|o1 l] eqn:E.
  - intros o k Ho Hk. destruct (keys k) eqn:C; [|reflexivity]. destruct (V o k Ho Hk C) as (o' & [] & _).
  - cbn [g_inv g_ops]. split; [reflexivity|]. split; [discriminate|]. split.
    + intros o Ho. apply W in Ho as (o0 & _ & H & ->). exact H.
    + intros fr a k. split.
      * intros (o & Ho & <- & <- & Hk). apply W in Ho as (o0 & H0 & _ & ->). cbn in Hk. apply filter_In in Hk as [Hk Hc]. split; [exact Hc|]. exists o0. auto.
      * intros (Hc & o & Ho & <- & <- & Hk). destruct (V o k Ho Hk Hc) as (o' & H1 & H2 & H3 & H4). exists o'. auto.
Qed.
Print Assumptions C42_subspace.

(** Two fragments, three rootspaces: 0 neutral, 1 charge transfer, 2 neutral again *)
Definition ex_ne (f r : nat) : Z := match f, r with O, 1%nat => 3 | O, _ => 2 | _, 1%nat => 1 | _, _ => 2 end.
Definition ex_op (b k : nat) (a : nat) := mkOpt [0; 1]%nat [(b, k, [0; 1]%nat)] a.
Example C42_example :
  neutral_only ex_ne (mkGroup [0; 1]%nat [ex_op 0 1 7; ex_op 0 2 8; ex_op 1 0 9; ex_op 1 1 10] None)
  = Ok (Some (mkGroup [0; 1]%nat [ex_op 0 2 8; ex_op 1 1 10] None))
  /\ cached ex_ne (ex_op 0 1 7) /\ ~ moves_no_electron ex_ne (ex_op 0 1 7)
  /\ subspace (fun k => Nat.eqb (fst (fst k)) 0) (mkGroup [0; 1]%nat [ex_op 0 1 7; ex_op 1 0 9] None)
     = Some (mkGroup [0; 1]%nat [ex_op 0 1 7] None).
Proof.
  repeat split; try discriminate.
  - cbn. intros k k' f [<-|[]] [<-|[]]. reflexivity.
  - cbn. intros k [<-|[]]. reflexivity.
  - intros H. specialize (H (0, 1, [0; 1])%nat 0%nat (or_introl eq_refl) (or_introl eq_refl)). discriminate.
Qed.
(** The conservation hypothesis is needed: the test only looks for fragments that gain electrons *)
Example C42_losing_op_passes : exists ne o, op_neutral ne o = Ok true /\ ~ moves_no_electron ne o.
Proof.
  exists (fun f r => Z.of_nat r), (mkOpt [0]%nat [(0, 1, [0])%nat] 0). split; [reflexivity|].
  intros H. specialize (H (0, 1, [0])%nat 0%nat (or_introl eq_refl) (or_introl eq_refl)). discriminate.
Qed.
