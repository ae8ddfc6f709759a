(** get_lroots: which nested sequences are accepted and what is returned. *)
From Coq Require Import List ZArith Lia Bool Arith.
From Verif Require Import Base BaseFacts AddrModel.
Import ListNotations.
Local Open Scope nat_scope.

(** Specification: an array has one state unless it has at least three dimensions; a sequence must
    hold only arrays or only sequences. *)
Inductive counts : ciarg -> ltable -> Prop :=
| counts_small sh : length sh <= 2 -> counts (Arr sh) (LNum 1)
| counts_big n a b rest : counts (Arr (n :: a :: b :: rest)) (LNum n)
| counts_seq ls ts :
    Forall2 counts ls ts ->
    (Forall (fun c => exists sh, c = Arr sh) ls \/ Forall (fun c => exists l, c = Seq l) ls) ->
    counts (Seq ls) (LList ts).

Fixpoint lr_loop (ci : list ciarg) (didrecurse dideval : bool) (acc : list ltable) : res ltable :=
  match ci with
  | [] => Ok (LList (rev acc))
  | c :: r =>
      match c with
      | Arr sh =>
          if didrecurse then Raise RuntimeError
          else lr_loop r didrecurse true (LNum (lnum sh) :: acc)
      | Seq _ =>
          if dideval then Raise RuntimeError
          else match get_lroots1 c with
               | Ok t => lr_loop r true dideval (t :: acc)
               | Raise e => Raise e
               end
      end
  end.

Lemma get_lroots1_seq ci : get_lroots1 (Seq ci) = lr_loop ci false false [].
Proof. reflexivity. Qed.

Lemma lnum_counts sh t : counts (Arr sh) t <-> t = LNum (lnum sh).
Proof.
  split.
  - intros H; inversion H; subst; cbn; auto.
    unfold lnum. destruct (Nat.ltb_spec (length sh) 3); [auto|lia].
  - intros ->. unfold lnum. destruct sh as [|a [|b [|c r]]]; cbn; try (apply counts_small; cbn; lia).
    apply counts_big.
Qed.

Fixpoint cisize (c : ciarg) : nat :=
  match c with Arr _ => 1 | Seq l => S (fold_right (fun x s => cisize x + s) 0 l) end.

Definition lr_ok (c : ciarg) := forall t, get_lroots1 c = Ok t <-> counts c t.
Definition lr_err (c : ciarg) := forall e, get_lroots1 c = Raise e -> e = RuntimeError.

Definition is_arr c := exists sh, c = Arr sh.
Definition is_seq c := exists l, c = Seq l.

(** one flag already set: the remaining elements must be of that kind *)
Lemma lr_loop_spec : forall ci rec ev acc t,
  Forall lr_ok ci -> (rec && ev = false) ->
  (lr_loop ci rec ev acc = Ok t <->
   exists ts, t = LList (rev acc ++ ts) /\ Forall2 counts ci ts /\
     ((rec = false /\ Forall is_arr ci) \/ (ev = false /\ Forall is_seq ci))).
Proof.
  induction ci as [|c ci IH]; intros rec ev acc t Hok Hf; cbn [lr_loop].
  - split.
    + intros H. injection H as <-. exists []. rewrite app_nil_r. repeat split; auto.
      destruct rec, ev; try discriminate; auto.
    + intros (ts & -> & HF & _). inversion HF; subst. rewrite app_nil_r; auto.
  - inversion Hok as [|? ? Hc Hok']; subst. destruct c as [sh|l].
    + destruct rec.
      * split; [discriminate|]. intros (ts & _ & _ & [[H _]|[_ H]]); [discriminate|].
        inversion H as [|? ? [l E] _]; discriminate.
      * rewrite (IH false true _ t Hok' eq_refl). split.
        -- intros (ts & -> & HF & [[_ H]|[H _]]); [|discriminate].
           exists (LNum (lnum sh) :: ts). cbn [rev]. rewrite <- app_assoc. repeat split; auto.
           ++ constructor; auto. apply lnum_counts; auto.
           ++ left; split; auto. constructor; auto. exists sh; auto.
        -- intros (ts & -> & HF & H). inversion HF as [|? t0 ? ts0 Ht0 HF']; subst.
           apply lnum_counts in Ht0 as ->. exists ts0. cbn [rev]. rewrite <- app_assoc.
           repeat split; auto. left. split; auto. destruct H as [[_ H]|[_ H]].
           ++ inversion H; auto.
           ++ inversion H as [|? ? [l E] _]; discriminate.
    + destruct ev.
      * split; [discriminate|]. intros (ts & _ & _ & [[_ H]|[H _]]); [|discriminate].
        inversion H as [|? ? [l' E] _]; discriminate.
      * destruct (get_lroots1 (Seq l)) as [t0|e] eqn:E.
        -- rewrite (IH true false _ t Hok' eq_refl). apply Hc in E. split.
           ++ intros (ts & -> & HF & [[H _]|[_ H]]); [discriminate|].
              exists (t0 :: ts). cbn [rev]. rewrite <- app_assoc. repeat split; auto.
              right; split; auto. constructor; auto. exists l; auto.
           ++ intros (ts & -> & HF & H). inversion HF as [|? t1 ? ts0 Ht0 HF']; subst.
              assert (t1 = t0) as ->.
              { apply Hc in Ht0. apply Hc in E. congruence. }
              exists ts0. cbn [rev]. rewrite <- app_assoc. repeat split; auto.
              right; split; auto. destruct H as [[_ H]|[_ H]].
              ** inversion H as [|? ? [l' E'] _]; discriminate.
              ** inversion H; auto.
        -- split; [discriminate|]. intros (ts & _ & HF & _).
           inversion HF as [|? t1 ? ts0 Ht0 HF']; subst. apply Hc in Ht0. congruence.
Qed.

Lemma lr_loop_err : forall ci rec ev acc e,
  Forall lr_err ci -> lr_loop ci rec ev acc = Raise e -> e = RuntimeError.
Proof.
  induction ci as [|c ci IH]; intros rec ev acc e Hok; cbn [lr_loop]; [discriminate|].
  inversion Hok as [|? ? Hc Hok']; subst. destruct c as [sh|l].
  - destruct rec; [congruence|]. apply IH; auto.
  - destruct ev; [congruence|]. destruct (get_lroots1 (Seq l)) as [t0|e0] eqn:E.
    + apply IH; auto.
    + intros H. apply Hc. congruence.
Qed.

Lemma get_lroots1_both c : lr_ok c /\ lr_err c.
Proof.
  remember (cisize c) as n eqn:En. assert (Hn : cisize c <= n) by lia. clear En.
  revert c Hn; induction n as [|n IH]; intros c Hn.
  - destruct c; cbn in Hn; lia.
  - destruct c as [sh|l].
    + split.
      * intros t. cbn. rewrite lnum_counts. split; congruence.
      * intros e H; discriminate.
    + assert (Hl : Forall (fun c => lr_ok c /\ lr_err c) l).
      { apply Forall_forall. intros c Hc. apply IH. cbn in Hn.
        assert (cisize c <= fold_right (fun x s => cisize x + s) 0 l); [|lia].
        clear - Hc. induction l; cbn in *; [tauto|]. destruct Hc as [->|Hc]; [lia|]. specialize (IHl Hc); lia. }
      assert (H1 : Forall lr_ok l) by (eapply Forall_impl; [|exact Hl]; cbn; tauto).
      assert (H2 : Forall lr_err l) by (eapply Forall_impl; [|exact Hl]; cbn; tauto).
      split.
      * intros t. rewrite get_lroots1_seq, (lr_loop_spec l false false [] t H1 eq_refl). split.
        -- intros (ts & -> & HF & H). constructor; auto. destruct H as [[_ H]|[_ H]]; auto.
        -- intros H; inversion H as [| |? ts HF Hk]; subst. exists ts. repeat split; auto.
           destruct Hk; auto.
      * intros e. rewrite get_lroots1_seq. apply lr_loop_err; auto.
Qed.

Lemma get_lroots_spec ci : forall t, get_lroots ci = Ok t <-> counts (Seq ci) t.
Proof. apply (get_lroots1_both (Seq ci)). Qed.
Lemma get_lroots_error ci e : get_lroots ci = Raise e -> e = RuntimeError.
Proof. apply (get_lroots1_both (Seq ci)). Qed.
