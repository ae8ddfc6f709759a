(** Unique amplitudes spread over the generators that share them. *)
From Coq Require Import List NArith ZArith Arith Bool Lia Reals.
From Verif Require Import Base BaseFacts Star FockSpec FockFacts PropFsucc UccModel UccProofs UccReal.
Import ListNotations.
Local Open Scope R_scope.

Lemma upd_len {A} k (f : A -> A) : forall l, length (upd k f l) = length l.
Proof. induction k as [|k IH]; intros [|x l]; cbn; auto. Qed.
Lemma row_len {T} row (xi : T) : forall amps, length (fold_left (fun amps k => upd k (fun _ => xi) amps) row amps) = length amps.
Proof. induction row as [|k row IH]; intros amps; cbn [fold_left]; [reflexivity|]. now rewrite IH, upd_len. Qed.
Lemma uniq_len {T} symtab : forall (x amps : list T), length (set_uniq T symtab x amps) = length amps.
Proof. induction symtab as [|row symtab IH]; intros [|xi x] amps; cbn [set_uniq]; try reflexivity. now rewrite IH, row_len. Qed.

Lemma upd_map {A B} (h : A -> B) k xi : forall l, map h (upd k (fun _ => xi) l) = upd k (fun _ => h xi) (map h l).
Proof. induction k as [|k IH]; intros [|x l]; cbn; auto. now rewrite IH. Qed.
Lemma row_map {A B} (h : A -> B) row xi : forall l, map h (fold_left (fun amps k => upd k (fun _ => xi) amps) row l)
  = fold_left (fun amps k => upd k (fun _ => h xi) amps) row (map h l).
Proof. induction row as [|k row IH]; intros l; cbn [fold_left]; [reflexivity|]. now rewrite IH, upd_map. Qed.
Lemma uniq_map {A B} (h : A -> B) symtab : forall x l, map h (set_uniq A symtab x l) = set_uniq B symtab (map h x) (map h l).
Proof. induction symtab as [|row symtab IH]; intros [|xi x] l; cbn [set_uniq map]; try reflexivity. now rewrite IH, row_map. Qed.

Lemma upd_F2 {A B} (P : A -> B -> Prop) k x y : P x y -> forall l l', Forall2 P l l' -> Forall2 P (upd k (fun _ => x) l) (upd k (fun _ => y) l').
Proof. intros Hp. induction k as [|k IH]; intros l l' H; destruct H; cbn; constructor; auto. Qed.
Lemma uniq_F2 {A B} (P : A -> B -> Prop) symtab : forall x y, Forall2 P x y -> forall l l', Forall2 P l l' -> Forall2 P (set_uniq A symtab x l) (set_uniq B symtab y l').
Proof.
  induction symtab as [|row symtab IH]; intros x y Hxy l l' H; destruct Hxy as [|xi yi x y Hi Hxy]; cbn [set_uniq]; try assumption.
  apply IH; [assumption|]. revert l l' H. induction row as [|k row IHr]; intros l l' H; cbn [fold_left]; [assumption|]. apply IHr. now apply upd_F2.
Qed.

Lemma dotl_cons d ds j jac : dotl (d :: ds) (j :: jac) = d * j + dotl ds jac.
Proof. reflexivity. Qed.
Lemma dotl_upd x : forall k w jac, length w = length jac -> (k < length w)%nat ->
  dotl (upd k (fun _ => x) w) jac = dotl w jac + (x - nth k w 0) * nth k jac 0.
Proof.
  induction k as [|k IH]; intros [|d w] [|j jac] L Hk; cbn [length] in *; try discriminate; try lia; cbn [upd nth]; rewrite !dotl_cons.
  - ring.
  - rewrite IH by lia. ring.
Qed.
Lemma nth_upd_other {A} (x d : A) : forall k j l, j <> k -> nth j (upd k (fun _ => x) l) d = nth j l d.
Proof. induction k as [|k IH]; intros [|j] [|y l] H; cbn; try reflexivity; try congruence. apply IH. congruence. Qed.
Lemma nth_row_other {A} (x d : A) row j : ~ In j row -> forall l, nth j (fold_left (fun amps k => upd k (fun _ => x) amps) row l) d = nth j l d.
Proof.
  induction row as [|k row IH]; intros H l; cbn [fold_left]; [reflexivity|]. rewrite IH by (intros C; apply H; now right).
  apply nth_upd_other. intros ->. apply H. now left.
Qed.
Lemma dotl_row x row : NoDup row -> forall w jac, length w = length jac -> (forall k, In k row -> (k < length w)%nat /\ nth k w 0 = 0) ->
  dotl (fold_left (fun amps k => upd k (fun _ => x) amps) row w) jac = dotl w jac + x * bsum (K := Rstar) row (fun k => nth k jac 0).
Proof.
  induction 1 as [|k row Hk Hn IH]; intros w jac L H; cbn [fold_left].
  - change (bsum (K := Rstar) [] (fun k => nth k jac 0)) with 0. ring.
  - rewrite IH.
    + rewrite dotl_upd; [|assumption|apply H; now left]. rewrite (proj2 (H k (or_introl eq_refl))).
      change (bsum (K := Rstar) (k :: row) (fun k => nth k jac 0)) with (nth k jac 0 + bsum (K := Rstar) row (fun k => nth k jac 0)). ring.
    + now rewrite upd_len.
    + intros j Hj. rewrite upd_len. split; [apply H; now right|]. rewrite nth_upd_other by congruence. apply H. now right.
Qed.
Lemma dotl_uniq symtab : NoDup (concat symtab) -> forall ds w jac, length ds = length symtab -> length w = length jac ->
  (forall k, In k (concat symtab) -> (k < length w)%nat /\ nth k w 0 = 0) ->
  dotl (set_uniq R symtab ds w) jac = dotl w jac + dotl ds (map (fun row => bsum (K := Rstar) row (fun k => nth k jac 0)) symtab).
Proof.
  induction symtab as [|row symtab IH]; intros Hn [|d ds] w jac Ld L H; cbn [length] in Ld; try discriminate; cbn [set_uniq map].
  - change (dotl [] []) with 0. ring.
  - cbn [concat] in Hn, H. rewrite dotl_cons. rewrite IH.
    + rewrite dotl_row; [ring| |assumption|].
      * clear - Hn. induction row as [|k row IH]; [constructor|]. cbn in Hn. inversion Hn; subst. constructor; [|auto]. intros C. apply H1. apply in_or_app. now left.
      * intros k Hk. apply H. apply in_or_app. now left.
    + clear - Hn. induction row as [|k row IH]; [exact Hn|]. cbn in Hn. inversion Hn; subst. auto.
    + lia.
    + now rewrite row_len.
    + intros k Hk. rewrite row_len. split; [apply H; apply in_or_app; now right|].
      rewrite nth_row_other; [apply H; apply in_or_app; now right|]. intros C. clear - Hn C Hk.
      induction row as [|j row IH]; [destruct C|]. cbn in Hn. inversion Hn; subst. destruct C as [->|C]; [|auto]. apply H1. apply in_or_app. now right.
Qed.
Lemma dotl_zeros jac : dotl (repeat 0 (length jac)) jac = 0.
Proof. induction jac as [|j jac IH]; [reflexivity|]. cbn [length repeat]. rewrite dotl_cons, IH. ring. Qed.
