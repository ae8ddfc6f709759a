(** C52, C53: the product-state fixed-point iteration. *)
From Coq Require Import List Arith Bool Lia.
From Verif Require Import Base BaseFacts PsKernModel.
Import ListNotations.

Section K.
Context {C V H : Type}.
Variable solve : nat -> H -> C -> V * C * bool.
Variable init_guess : list C -> list C.
Variable project : list C -> H * list C.
Variable grad_small : H -> list C -> bool.
Variable sigma_small : list V -> bool.

(** *** Specification: the sequence of states, without the convergence test *)
Variable serialfrag : bool.
Notation kst := (kstate C V).
Fixpoint states (s : kst) (k : nat) : kst :=
  match k with
  | O => s
  | S k' => let t := states s k' in
            let hc := project (init_guess (k_ci _ _ t)) in
            one_shot C V H solve serialfrag k' (fst hc) (k_e _ _ t) (snd hc) (k_conv _ _ t)
  end.
(** the gradient and the spread of the fragment energies are small in state t *)
Definition small (t : kst) : Prop :=
  let hc := project (init_guess (k_ci _ _ t)) in
  grad_small (fst hc) (snd hc) = true /\ sigma_small (k_e _ _ t) = true.

Notation loop_ := (loop C V H solve init_guess project grad_small sigma_small serialfrag).
Notation kernel_ := (kernel C V H solve init_guess project grad_small sigma_small serialfrag).

Lemma shot_from_conv_nonempty k n it h e ci (cv : list bool) :
  cv <> [] -> snd (shot_from C V H solve serialfrag k n it h e ci cv) <> [].
Proof.
  revert k e ci. induction cv as [|v cv IH]; intros k e ci Hn; [congruence|].
  destruct e as [|e0 e]; [cbn; congruence|]. destruct ci as [|c ci]; [cbn; congruence|]. cbn.
  destruct (shot_from _ _ _ _ _ _ _ _ _ _ _ _) as [[er cr] vr].
  destruct (serialfrag && _); [cbn; congruence|]. destruct (solve k h c) as [[? ?] ?]. cbn. congruence.
Qed.
Lemma states_conv_nonempty s k : k_conv _ _ s <> [] -> k_conv _ _ (states s k) <> [].
Proof.
  intros Hn. induction k; auto. cbn [states]. unfold one_shot.
  pose proof (shot_from_conv_nonempty 0 (length (snd (project (init_guess (k_ci C V (states s k))))))
    k (fst (project (init_guess (k_ci C V (states s k))))) (k_e C V (states s k)) (snd (project (init_guess (k_ci C V (states s k))))) _ IHk) as P.
  destruct (shot_from _ _ _ _ _ _ _ _ _ _ _ _) as [[er cr] vr]. exact P.
Qed.

Lemma loop_exact s n : forall it, k_conv _ _ s <> [] ->
  (exists k, it <= k < it + n /\ 1 <= k /\ small (states s k) /\ (forall j, it <= j < k -> 1 <= j -> ~ small (states s j)) /\
     loop_ n it (states s it) = (true, k_ci _ _ (states s k), k_conv _ _ (states s k))) \/
  ((forall j, it <= j < it + n -> 1 <= j -> ~ small (states s j)) /\
     loop_ n it (states s it) = (false, init_guess (k_ci _ _ (states s (it + n))), k_conv _ _ (states s (it + n)))).
Proof.
  induction n as [|n IH]; intros it Hn.
  - right. split; [intros; lia|]. cbn. rewrite Nat.add_0_r. auto.
  - cbn [loop]. destruct (project (init_guess (k_ci C V (states s it)))) as [h ci0] eqn:EP.
    assert (NE : py_all_of_list (k_conv C V (states s it)) = true).
    { pose proof (states_conv_nonempty s it Hn). unfold py_all_of_list. destruct (k_conv C V (states s it)); [congruence|reflexivity]. }
    rewrite NE, andb_true_r.
    destruct (grad_small h ci0 && sigma_small (k_e C V (states s it)) && (0 <? it)) eqn:E.
    + left. apply andb_true_iff in E as [E E3]. apply andb_true_iff in E as [E1 E2]. apply Nat.ltb_lt in E3.
      exists it. repeat split; try lia. * rewrite EP; auto. * auto. 
    + assert (NS : 1 <= it -> ~ small (states s it)).
      { intros Hit [S1 S2]. rewrite EP in S1. cbn [fst snd] in S1. rewrite S1, S2 in E. cbn in E. destruct it; [lia|discriminate]. }
      assert (ES : one_shot C V H solve serialfrag it h (k_e C V (states s it)) ci0 (k_conv C V (states s it)) = states s (S it)).
      { cbn [states]. rewrite EP. auto. }
      rewrite ES. destruct (IH (S it) Hn) as [(k & K1 & K2 & K3 & K4 & K5)|[K1 K2]].
      * left. exists k. repeat split; try lia; try apply K3; auto.
        intros j Hj Hj1. destruct (Nat.eq_dec j it) as [->|]; auto. apply K4; lia.
      * right. rewrite <- Nat.add_succ_comm. split; auto.
        intros j Hj Hj1. destruct (Nat.eq_dec j it) as [->|]; auto. apply K1; lia.
Qed.

(** ** C52: what the reported convergence means.
    The kernel reports convergence exactly when some state after at least one shot, before the last
    permitted cycle, has a small gradient and a small energy spread; it returns the first such state. *)
Theorem C52_exact : forall max_cycle s conv ci cv, k_conv _ _ s <> [] -> 1 <= max_cycle ->
  kernel_ max_cycle s = Ok (conv, ci, cv) <->
  (exists k, 1 <= k < max_cycle /\ small (states s k) /\ (forall j, 1 <= j < k -> ~ small (states s j)) /\
     (conv, ci, cv) = (true, k_ci _ _ (states s k), k_conv _ _ (states s k))) \/
  ((forall j, 1 <= j < max_cycle -> ~ small (states s j)) /\
     (conv, ci, cv) = (false, init_guess (k_ci _ _ (states s max_cycle)), k_conv _ _ (states s max_cycle))).
Proof.
  intros m s conv ci cv Hn Hm. unfold kernel. destruct m as [|m]; [lia|].
  destruct (k_conv C V s) as [|v0 cv0] eqn:EC; [congruence|].
  assert (Hn' : k_conv C V s <> []) by congruence.
  pose proof (loop_exact s (S m) 0 Hn') as L. cbn [states] in L. 
  destruct L as [(k & K1 & K2 & K3 & K4 & K5)|[K1 K2]].
  - rewrite K5. split.
    + intros E. inversion E; subst. left. exists k. split; [lia|]. split; auto. split; auto. intros; apply K4; lia.
    + intros [(k' & A1 & A2 & A3 & A4)|[A1 A2]].
      * rewrite A4. assert (k = k') as ->; auto. destruct (lt_eq_lt_dec k k') as [[L|L]|L]; auto.
        -- destruct (A3 k); auto; lia. -- destruct (K4 k'); auto; lia.
      * destruct (A1 k); auto. lia.
  - rewrite K2. split.
    + intros E. inversion E; subst. right. split; auto. intros; apply K1; lia.
    + intros [(k' & A1 & A2 & A3 & A4)|[A1 A2]].
      * destruct (K1 k'); auto; lia.
      * rewrite A2. auto.
Qed.

(** ** C53: one shot in serial mode touches one fragment only; otherwise every fragment is solved
    with the Hamiltonians of the beginning of the cycle *)
Lemma shot_from_nth k n it h : forall e ci cv i e0 c v,
  length e = length ci -> length cv = length ci ->
  nth_error e i = Some e0 -> nth_error ci i = Some c -> nth_error cv i = Some v ->
  let '(e1, c1, v1) := shot_from C V H solve serialfrag k n it h e ci cv in
  let '(er, cr, vr) := if serialfrag && negb (it mod n =? k + i) then (e0, c, v) else solve (k + i) h c in
  nth_error e1 i = Some er /\ nth_error c1 i = Some cr /\ nth_error v1 i = Some vr.
Proof.
  revert k. intros k e. revert k. induction e as [|a e IH]; intros k [|b ci] [|w cv] i e0 c v L1 L2 He Hc Hv; cbn in L1, L2; try discriminate; try lia.
  { destruct i; discriminate. }
  cbn [shot_from]. destruct i as [|i]; cbn [nth_error] in *.
  - inversion He; inversion Hc; inversion Hv; subst. rewrite Nat.add_0_r.
    destruct (shot_from _ _ _ _ _ _ _ _ _ _ _ _) as [[er cr] vr].
    destruct (serialfrag && negb (it mod n =? k)); [auto|]. destruct (solve k h c) as [[? ?] ?]. auto.
  - specialize (IH (S k) ci cv i e0 c v ltac:(lia) ltac:(lia) He Hc Hv).
    destruct (shot_from _ _ _ _ _ _ _ _ _ _ _ _) as [[er cr] vr]. replace (k + S i) with (S k + i) by lia.
    destruct (serialfrag && negb (it mod n =? S k + i)).
    + destruct (serialfrag && negb (it mod n =? k)); [auto|]. destruct (solve k h b) as [[? ?] ?]. auto.
    + destruct (solve (S k + i) h c) as [[x y] z].
      destruct (serialfrag && negb (it mod n =? k)); [auto|]. destruct (solve k h b) as [[? ?] ?]. auto.
Qed.
End K.

Theorem C53_one_shot : forall {C V H : Type} (solve : nat -> H -> C -> V * C * bool) serialfrag it h e ci cv i e0 c v,
  length e = length ci -> length cv = length ci ->
  nth_error e i = Some e0 -> nth_error ci i = Some c -> nth_error cv i = Some v ->
  let t := one_shot C V H solve serialfrag it h e ci cv in
  let '(er, cr, vr) := solve i h c in
  (serialfrag = false \/ it mod length ci = i ->
     nth_error (k_e _ _ t) i = Some er /\ nth_error (k_ci _ _ t) i = Some cr /\ nth_error (k_conv _ _ t) i = Some vr) /\
  (serialfrag = true -> it mod length ci <> i ->
     nth_error (k_e _ _ t) i = Some e0 /\ nth_error (k_ci _ _ t) i = Some c /\ nth_error (k_conv _ _ t) i = Some v).
Proof.
  intros C V H solve sf it h e ci cv i e0 c v L1 L2 He Hc Hv t. unfold t, one_shot.
  pose proof (shot_from_nth solve sf 0 (length ci) it h e ci cv i e0 c v L1 L2 He Hc Hv) as P. cbn [Nat.add] in P.
  destruct (shot_from _ _ _ _ _ _ _ _ _ _ _ _) as [[e1 c1] v1]. cbn [k_e k_ci k_conv].
  destruct (solve i h c) as [[er cr] vr] eqn:ES. split.
  - intros [->|Hi]; [exact P|]. rewrite Hi, Nat.eqb_refl in P. cbn [negb] in P. rewrite andb_false_r in P. exact P.
  - intros -> Hi. destruct (Nat.eqb_spec (it mod length ci) i); [congruence|]. exact P.
Qed.

(** ** The convergence test does not look at the solvers.
    One fragment whose solver never converges, gradient and spread small: convergence is reported. *)
Theorem C52_refuted : exists (solve : nat -> unit -> nat -> nat * nat * bool) (cv : list bool) ci,
  (forall i h c, snd (solve i h c) = false) /\
  kernel nat nat unit solve (fun l => l) (fun l => (tt, l)) (fun _ _ => true) (fun _ => true) false 50
    (mkKS _ _ [0] [5] [false]) = Ok (true, ci, cv) /\ forallb (fun x => x) cv = false.
Proof.
  exists (fun _ _ c => (0, c, false)), [false], [5]. split; [auto|]. split; vm_compute; reflexivity.
Qed.

(** concrete runs *)
Definition C52_run_cycle (n : nat) := kernel nat nat unit (fun i _ c => (c, c - 1, true)) (fun l => l) (fun l => (tt, l))
  (fun _ l => forallb (fun c => c <? 3) l) (fun _ => true) true n (mkKS _ _ [0; 0] [4; 3] [false; false]).
Example C52_case : C52_run_cycle 50 = Ok (true, [2; 2], [true; true]).
Proof. vm_compute. reflexivity. Qed.
Example C52_case_few_cycles : C52_run_cycle 3 = Ok (false, [2; 2], [true; true]).
Proof. vm_compute. reflexivity. Qed.
Example C52_case_no_cycle : C52_run_cycle 0 = Raise NameError.
Proof. vm_compute. reflexivity. Qed.
Example C53_case : k_ci _ _ (one_shot nat nat unit (fun i _ c => (c, c + 10 * (i + 1), true)) true 4 tt [0; 0; 0] [1; 2; 3] [false; false; false]) = [1; 22; 3].
Proof. vm_compute. reflexivity. Qed.

Print Assumptions C52_exact.
Print Assumptions C52_refuted.
Print Assumptions C53_one_shot.
