(** Products of unitary excitation factors: what the operator class evaluates. *)
From Coq Require Import List NArith ZArith Arith Bool Lia Ring Sorting.Permutation.
From Verif Require Import Base Star FockSpec FockFacts FsuccModel FsuccFacts FsuccProofs FockOps FsuccHop PropFsucc UccModel.
Import ListNotations.

(** a generator the class accepts *)
Definition sane (norb : nat) (g : list nat * list nat) : Prop :=
  below norb (fst g) /\ below norb (snd g) /\ NoDup (fst g) /\ NoDup (snd g) /\ ~ same_set (fst g) (snd g).

Section Ucc.
Variable K : star_ring.
Add Ring Kring : (sring K).
Local Open Scope star_scope.
Variable is0 : K -> bool.
Hypothesis is0_ok : forall x : K, is0 x = true -> x = s0.
Variable sched : list N -> list N.
Hypothesis sched_ok : forall l, Permutation (sched l) l.
Variable T : Type.
Variable my_amp : bool -> bool -> T -> T.
Variables cosT sinT : T -> K.
Hypothesis cos_ok : forall tr (d : bool) t, cosT (my_amp tr d t) = if d then - sinT t else cosT t.
Hypothesis sin_ok : forall (tr d : bool) t, sinT (my_amp tr d t) = if tr then - (if d then cosT t else sinT t) else if d then cosT t else sinT t.
Hypothesis pyth : forall t, cosT t * cosT t + sinT t * sinT t = s1.
Hypothesis cos_real : forall t, sconj (cosT t) = cosT t.
Hypothesis sin_real : forall t, sconj (sinT t) = sinT t.
Notation vec := (vec K). Notation veq := (veq K). Notation inner := (inner K).
Notation gen := (list nat * list nat)%type.

Variable m : nat.
Hypothesis Hm : (m < 31)%nat.
Notation G g := (FockSpec.gen K m (fst g) (snd g)).
(** exp (t G), or exp (- t G) if [tr] *)
Definition fac (tr : bool) (x : gen * T) (v : vec) : vec :=
  rot K m (fst (fst x)) (snd (fst x)) (cosT (snd x)) (if tr then - sinT (snd x) else sinT (snd x)) v.
(** its derivative with respect to t *)
Definition dfac (tr : bool) (x : gen * T) (v : vec) : vec := fun e =>
  (if tr then - cosT (snd x) else cosT (snd x)) * G (fst x) v e + sinT (snd x) * G (fst x) (G (fst x) v) e.
(** factors applied from the left of the list on *)
Definition prod (tr : bool) (l : list (gen * T)) (v : vec) : vec := fold_left (fun v x => fac tr x v) l v.

Lemma veq_refl (v : vec) : veq m v v. Proof. intros d _. reflexivity. Qed.
Lemma veq_sym (u v : vec) : veq m u v -> veq m v u. Proof. intros H d Hd. symmetry. auto. Qed.
Lemma veq_trans (u v w : vec) : veq m u v -> veq m v w -> veq m u w. Proof. intros H1 H2 d Hd. rewrite H1; auto. Qed.

Notation ok x := (sane m (fst x)).
Lemma fac_ext tr x u v : ok x -> veq m u v -> veq m (fac tr x u) (fac tr x v).
Proof. intros [H1 [H2 _]] E. unfold fac. now apply rot_ext. Qed.
Lemma G_ext g (u v : vec) : sane m g -> veq m u v -> veq m (G g u) (G g v).
Proof. intros [H1 [H2 _]] E. now apply gen_ext. Qed.
Lemma dfac_ext tr x u v : ok x -> veq m u v -> veq m (dfac tr x u) (dfac tr x v).
Proof.
  intros Hx E e He. unfold dfac. pose proof (G_ext (fst x) u v Hx E) as E1. rewrite (E1 e He). 
  now rewrite (G_ext (fst x) _ _ Hx E1 e He).
Qed.
Lemma prod_ext tr l : Forall (fun x => ok x) l -> forall u v, veq m u v -> veq m (prod tr l u) (prod tr l v).
Proof. induction 1 as [|x l Hx Hl IH]; intros u v E; [exact E|]. cbn [prod fold_left]. apply IH. now apply fac_ext. Qed.
Lemma prod_app tr l1 l2 v : prod tr (l1 ++ l2) v = prod tr l2 (prod tr l1 v).
Proof. unfold prod. apply fold_left_app. Qed.
Lemma fac_inv tr x v : ok x -> veq m (fac (negb tr) x (fac tr x v)) v.
Proof.
  intros [H1 [H2 [_ [_ H3]]]] e He. unfold fac. destruct tr; cbn [negb].
  - rewrite <- (rot_inv K m _ _ H1 H2 (differ_of _ _ H3) (cosT (snd x)) (- sinT (snd x)) v e).
    + replace (- - sinT (snd x)) with (sinT (snd x)) by ring. reflexivity.
    + rewrite <- (pyth (snd x)). ring.
  - apply rot_inv; try assumption; [now apply differ_of|apply pyth].
Qed.
Lemma prod_rev tr l : Forall (fun x => ok x) l -> forall v, veq m (prod (negb tr) (rev l) (prod tr l v)) v.
Proof.
  induction 1 as [|x l Hx Hl IH]; intros v; [apply veq_refl|]. cbn [rev]. rewrite prod_app. cbn [prod fold_left].
  fold (prod tr l (fac tr x v)) (prod (negb tr) (rev l) (prod tr l (fac tr x v))).
  eapply veq_trans; [apply fac_ext; [assumption|apply IH]|]. now apply fac_inv.
Qed.
Lemma ok_rev l : Forall (fun x => ok x) l -> Forall (fun x : gen * T => ok x) (rev l).
Proof. intros H. apply Forall_forall. intros x Hx. apply in_rev in Hx. rewrite Forall_forall in H. auto. Qed.
Lemma prod_rev' tr l : Forall (fun x => ok x) l -> forall v, veq m (prod tr l (prod (negb tr) (rev l) v)) v.
Proof.
  intros H v. pose proof (prod_rev (negb tr) (rev l) (ok_rev l H) v) as P. rewrite rev_involutive, negb_involutive in P. exact P.
Qed.
Lemma fac_adj tr x u v : ok x -> inner m (fac tr x u) v = inner m u (fac (negb tr) x v).
Proof.
  intros [H1 [H2 _]]. unfold fac. rewrite rot_adj; try assumption.
  - destruct tr; cbn [negb]; [|reflexivity]. now replace (- - sinT (snd x)) with (sinT (snd x)) by ring.
  - apply cos_real.
  - destruct tr; [|apply sin_real]. pose proof (sg_conj K true (sinT (snd x))) as S. cbn [sg] in S. now rewrite S, sin_real.
Qed.
Lemma prod_adj tr l : Forall (fun x => ok x) l -> forall u v, inner m (prod tr l u) v = inner m u (prod (negb tr) (rev l) v).
Proof.
  induction 1 as [|x l Hx Hl IH]; intros u v; [reflexivity|]. cbn [rev]. rewrite prod_app. cbn [prod fold_left].
  fold (prod tr l (fac tr x u)) (prod (negb tr) (rev l) v). rewrite IH. now apply fac_adj.
Qed.
Lemma prod_iso tr l : Forall (fun x => ok x) l -> forall u v, inner m (prod tr l u) (prod tr l v) = inner m u v.
Proof. intros H u v. rewrite prod_adj by assumption. apply inner_ext; [apply veq_refl|]. now apply prod_rev. Qed.

(** ** one factor *)
Notation op1u := (op1u K is0 sched T my_amp cosT sinT).
Lemma op1u_ok x tr psi psi' : ok x -> veq m psi psi' -> exists r, op1u true m (fst x) (snd x) psi tr false = Ok r /\ veq m r (fac tr x psi').
Proof.
  intros Hx E. pose proof Hx as [H1 [H2 [_ [_ H3]]]]. unfold UccModel.op1u.
  destruct (C57_unitary K is0 is0_ok sched sched_ok m (fst (fst x)) (snd (fst x)) (cosT (my_amp tr false (snd x))) (sinT (my_amp tr false (snd x))) psi Hm H1 H2 H3) as [r [-> [R _]]].
  exists r. split; [reflexivity|]. apply veq_trans with (fac tr x psi); [|now apply fac_ext]. intros e He. rewrite R by assumption.
  rewrite cos_ok, sin_ok. unfold fac. reflexivity.
Qed.
Lemma gen_val a i (v w : vec) e : below m a -> below m i -> (forall d, v d = w d) -> FockSpec.gen K m a i v e = FockSpec.gen K m a i w e.
Proof.
  intros Ha Hi E. unfold FockSpec.gen, vsub. destruct (exop_reads K m a i e Hi) as [b1 [e1 [Q1 _]]], (exop_reads K m i a e Ha) as [b2 [e2 [Q2 _]]].
  rewrite !Q1, !Q2, !E. reflexivity.
Qed.
Lemma dop1u_ok x tr psi psi' : ok x -> veq m psi psi' ->
  exists p r, projai_ K true m (fst x) psi = Ok p /\ op1u true m (fst x) (snd x) p tr true = Ok r /\ veq m r (dfac tr x psi').
Proof.
  intros Hx E. pose proof Hx as [H1 [H2 [N1 [N2 H3]]]]. unfold projai_.
  destruct (C57_project_gen K m (fst (fst x)) (snd (fst x)) psi Hm H1 H2 H3 N1 N2) as [p [-> P]]. exists p.
  unfold UccModel.op1u.
  destruct (C57_unitary K is0 is0_ok sched sched_ok m (fst (fst x)) (snd (fst x)) (cosT (my_amp tr true (snd x))) (sinT (my_amp tr true (snd x))) p Hm H1 H2 H3) as [r [-> [R _]]].
  exists r. split; [reflexivity|]. split; [reflexivity|].
  apply veq_trans with (dfac tr x psi); [|now apply dfac_ext].
  intros e He. rewrite R by assumption. rewrite cos_ok, sin_ok. unfold rot, dfac.
  pose proof (G_ext (fst x) p _ Hx P) as E1. pose proof (G_ext (fst x) _ _ Hx E1) as E2. rewrite (P e He), (E1 e He), (E2 e He).
  assert (C : forall w : vec, veq m (G (fst x) (fun e => - G (fst x) (G (fst x) w) e)) (G (fst x) w)).
  { intros w d _. transitivity (G (fst x) (fun e => - s1 * G (fst x) (G (fst x) w) e + s0 * w e) d).
    - apply gen_val; [assumption..|]. intros d'. ring.
    - rewrite gen_lin by assumption. rewrite gen_cube by (try assumption; now apply differ_of). ring. }
  rewrite (C psi e He), (G_ext (fst x) _ _ Hx (C psi) e He). destruct tr; ring.
Qed.

(** ** the loops *)
Notation item := (nat * (gen * T))%type.
Notation okI l := (Forall (fun it : item => sane m (fst (snd it))) l).
Lemma apply_items_ok tr (l : list item) : okI l -> forall psi psi', veq m psi psi' ->
  exists r, apply_items K is0 sched T my_amp cosT sinT true m tr l psi = Ok r /\ veq m r (prod tr (map snd l) psi').
Proof.
  induction 1 as [|[ix [g t]] l Hx Hl IH]; intros psi psi' E.
  - exists psi. split; [reflexivity|exact E].
  - cbn [apply_items map snd prod fold_left]. destruct (op1u_ok (g, t) tr psi psi' Hx E) as [r [E1 R1]]. cbn [fst snd] in E1. rewrite E1. cbn [bind].
    apply IH. exact R1.
Qed.
Lemma deriv_loop_ok igend tr full (l1 l2 : list item) x c : okI (l1 ++ (igend, x) :: l2) ->
  (forall it, In it l1 -> fst it <> igend) -> (forall it, In it l2 -> fst it <> igend) ->
  forall psi psi', veq m psi psi' ->
  exists d up, deriv_loop K is0 sched T my_amp cosT sinT true m igend tr full (l1 ++ (igend, x) :: l2) psi c = Ok (d, Some up) /\
    veq m up (prod tr (map snd l1) psi') /\
    veq m d (if full then prod tr (map snd l2) (dfac tr x (prod tr (map snd l1) psi')) else dfac tr x (prod tr (map snd l1) psi')).
Proof.
  intros Hok N1 N2. induction l1 as [|[ix [g t]] l1 IH]; intros psi psi' E.
  - cbn [app map prod fold_left]. destruct x as [g t]. cbn [deriv_loop]. rewrite Nat.eqb_refl.
    inversion Hok as [|? ? Hx Hl2]; subst. cbn [fst snd] in Hx.
    destruct (dop1u_ok (g, t) tr psi psi' Hx E) as [p [r [E1 [E2 R]]]]. cbn [fst snd] in E1, E2. rewrite E1. cbn [bind fst snd]. rewrite E2. cbn [bind].
    destruct full; cbn [andb negb].
    + assert (G' : forall l (c' : option vec), okI l -> (forall it, In it l -> fst it <> igend) -> forall v v', veq m v v' -> exists d, 
        deriv_loop K is0 sched T my_amp cosT sinT true m igend tr true l v c' = Ok (d, c') /\ veq m d (prod tr (map snd l) v')).
      { clear - is0_ok sched_ok cos_ok sin_ok Hm. intros l c' Hl. induction Hl as [|[ix [g t]] l Hx Hl IH]; intros N v v' E.
        - exists v. split; [reflexivity|exact E].
        - cbn [deriv_loop]. destruct (Nat.eqb_spec ix igend) as [C|C]; [exfalso; apply (N (ix, (g, t)) (or_introl eq_refl)); exact C|].
          cbn [bind fst snd]. destruct (op1u_ok (g, t) tr v v' Hx E) as [r [E1 R1]]. cbn [fst snd] in E1. rewrite E1. cbn [bind andb].
          destruct (IH ltac:(intros; apply N; now right) r _ R1) as [d [E2 R2]]. exists d. split; [exact E2|exact R2]. }
      destruct (G' l2 (Some psi) Hl2 N2 r _ R) as [d [E3 R3]]. exists d, psi. auto.
    + exists r, psi. auto.
  - cbn [app map prod fold_left snd]. inversion Hok as [|? ? Hx Hl]; subst. cbn [deriv_loop].
    destruct (Nat.eqb_spec ix igend) as [C|C]; [exfalso; apply (N1 (ix, (g, t)) (or_introl eq_refl)); exact C|].
    cbn [bind fst snd]. destruct (op1u_ok (g, t) tr psi psi' Hx E) as [r [E1 R1]]. cbn [fst snd] in E1. rewrite E1. cbn [bind andb].
    apply IH; [assumption|intros; apply N1; now right|assumption].
Qed.

Notation uop := (uop T).
Section Op.
Variable u : uop.
Hypothesis Um : u_norb T u = m.
Hypothesis Usane : Forall (sane m) (u_gens T u).
Hypothesis Ulen : length (u_amps T u) = length (u_gens T u).
Notation n := (length (u_gens T u)).
Definition facs : list (gen * T) := combine (u_gens T u) (u_amps T u).
Definition items : list item := combine (seq 0 n) facs.

Lemma facs_len : length facs = n.
Proof. unfold facs. rewrite combine_length. lia. Qed.
Lemma facs_ok : Forall (fun x => ok x) facs.
Proof. apply Forall_forall. intros [g t] H. apply in_combine_l in H. rewrite Forall_forall in Usane. now apply Usane. Qed.
Lemma items_snd : map snd items = facs.
Proof. unfold items. assert (E : length (seq 0 n) = length facs) by (rewrite seq_length, facs_len; reflexivity). revert E. generalize (seq 0 n) as s, facs as f. clear. intros s. induction s as [|x s IH]; intros [|y f] E; try discriminate; [reflexivity|]. cbn. f_equal. apply IH. now injection E. Qed.
Lemma items_ok : okI items.
Proof. apply Forall_forall. intros [k x] H. apply in_combine_r in H. pose proof facs_ok as F. rewrite Forall_forall in F. now apply F. Qed.
Lemma items_split k x : nth_error facs k = Some x ->
  items = firstn k items ++ (k, x) :: skipn (S k) items /\
  map snd (firstn k items) = firstn k facs /\ map snd (skipn (S k) items) = skipn (S k) facs /\
  (forall it, In it (firstn k items) -> fst it < k)%nat /\ (forall it, In it (skipn (S k) items) -> k < fst it)%nat.
Proof.
  intros Hk. assert (Hl : (k < n)%nat) by (rewrite <- facs_len; apply nth_error_Some; congruence).
  assert (N : forall j, (j < n)%nat -> nth_error items j = option_map (fun y => (j, y)) (nth_error facs j)).
  { unfold items. intros j Hj. pose proof facs_len as FL. revert FL Hj. generalize facs as f. generalize n as nn. intros nn f FL Hj.
    assert (Gg : forall s (f : list (gen * T)) j, (j < length f)%nat -> nth_error (combine (seq s (length f)) f) j = option_map (fun y => ((s + j)%nat, y)) (nth_error f j)).
    { clear. intros s f. revert s. induction f as [|y f IH]; intros s j Hj; [cbn in Hj; lia|]. cbn [length seq combine]. destruct j; cbn [nth_error option_map]; [now rewrite Nat.add_0_r|].
      rewrite IH by (cbn in Hj; lia). destruct (nth_error f j); cbn; [do 3 f_equal; lia|reflexivity]. }
    rewrite <- FL in *. now rewrite Gg. }
  assert (IL : length items = n) by (unfold items; rewrite combine_length, seq_length, facs_len; lia).
  split; [|split; [|split; [|split]]].
  - rewrite <- (firstn_skipn k items) at 1. f_equal.
    specialize (N k Hl). rewrite Hk in N. cbn in N. clear - N. revert N. generalize (k, x) as it. generalize items as l. induction k; intros [|y l] it N; cbn in *; try discriminate; [now injection N as ->|]. now apply IHk.
  - rewrite <- firstn_map. now rewrite items_snd.
  - rewrite <- skipn_map. now rewrite items_snd.
  - intros it Hit. apply In_nth_error in Hit. destruct Hit as [j Hj].
    assert (J : (j < k)%nat). { assert (j < length (firstn k items))%nat by (apply nth_error_Some; congruence). rewrite firstn_length in *. lia. }
    assert (Q : nth_error (firstn k items) j = nth_error items j).
    { rewrite <- (firstn_skipn k items) at 2. symmetry. apply nth_error_app1. rewrite firstn_length. lia. }
    rewrite Q, N in Hj by lia. destruct (nth_error facs j); cbn in Hj; [injection Hj as <-; cbn; lia|discriminate].
  - intros it Hit. apply In_nth_error in Hit. destruct Hit as [j Hj].
    assert (Q : nth_error (skipn (S k) items) j = nth_error items (S k + j)).
    { rewrite <- (firstn_skipn (S k) items) at 2. rewrite nth_error_app2 by (rewrite firstn_length; lia). f_equal. rewrite firstn_length. lia. }
    assert (J : (S k + j < n)%nat) by (rewrite <- IL; apply nth_error_Some; congruence).
    rewrite Q, N in Hj by lia. destruct (nth_error facs (S k + j)); cbn in Hj; [injection Hj as <-; cbn; lia|discriminate].
Qed.

Lemma call_ok tr psi psi' : veq m psi psi' -> exists r, call K is0 sched T my_amp cosT sinT u true tr psi = Ok r /\
  veq m r (if tr then prod true (rev facs) psi' else prod false facs psi').
Proof.
  intros E. unfold call, gen_fac. fold facs. fold items. rewrite Um. destruct tr.
  - destruct (apply_items_ok true (rev items) ltac:(apply Forall_rev, items_ok) psi psi' E) as [r [E1 R]]. exists r. split; [exact E1|].
    now rewrite map_rev, items_snd in R.
  - destruct (apply_items_ok false items items_ok psi psi' E) as [r [E1 R]]. exists r. split; [exact E1|]. now rewrite items_snd in R.
Qed.

(** the derivative of U psi with respect to amplitude [k] *)
Definition dprod (k : nat) (x : gen * T) (psi : vec) : vec := prod false (skipn (S k) facs) (dfac false x (prod false (firstn k facs) psi)).
Definition dprod_part (k : nat) (x : gen * T) (psi : vec) : vec := dfac false x (prod false (firstn k facs) psi).
(** ... and of U' psi *)
Definition dprodT (k : nat) (x : gen * T) (psi : vec) : vec := prod true (rev (firstn k facs)) (dfac true x (prod true (rev (skipn (S k) facs)) psi)).

Lemma get_deriv1_ok k x full psi psi' j (us : option nat) : nth_error facs k = Some x -> (us = Some j \/ (us = None /\ j = 0%nat)) -> (j <= k)%nat ->
  veq m psi (prod false (firstn j facs) psi') ->
  exists d up, get_deriv1 K is0 sched T my_amp cosT sinT u true psi k false us full = Ok (d, Some up) /\
    veq m up (prod false (firstn k facs) psi') /\ veq m d (if full then dprod k x psi' else dprod_part k x psi').
Proof.
  intros Hk Hus Hj E. destruct (items_split k x Hk) as [S1 [S2 [S3 [S4 S5]]]].
  assert (F : get_deriv1 K is0 sched T my_amp cosT sinT u true psi k false us full = 
     deriv_loop K is0 sched T my_amp cosT sinT true m k false full (skipn j items) psi None).
  { unfold get_deriv1, gen_fac. fold facs. fold items. rewrite Um. destruct Hus as [->|[-> ->]]; [|reflexivity]. destruct (Nat.ltb_spec k j); [lia|reflexivity]. }
  assert (L : skipn j items = skipn j (firstn k items) ++ (k, x) :: skipn (S k) items).
  { rewrite S1 at 1. rewrite skipn_app. f_equal. rewrite firstn_length.
    assert (IL : length items = n) by (unfold items; rewrite combine_length, seq_length, facs_len; lia).
    assert (Hl : (k < n)%nat) by (rewrite <- facs_len; apply nth_error_Some; congruence).
    replace (j - Nat.min k (length items))%nat with 0%nat by lia. reflexivity. }
  rewrite F, L.
  destruct (deriv_loop_ok k false full (skipn j (firstn k items)) (skipn (S k) items) x None) with (psi := psi) (psi' := prod false (firstn j facs) psi') as [d [up [E1 [R1 R2]]]].
  - rewrite <- L. pose proof items_ok as O. rewrite <- (firstn_skipn j items) in O. now apply Forall_app in O.
  - intros it Hit. assert (I' : In it (firstn k items)) by (rewrite <- (firstn_skipn j (firstn k items)); apply in_or_app; now right). specialize (S4 _ I'). lia.
  - intros it Hit. specialize (S5 _ Hit). lia.
  - exact E.
  - assert (P : prod false (map snd (skipn j (firstn k items))) (prod false (firstn j facs) psi') = prod false (firstn k facs) psi').
    { rewrite <- skipn_map, S2. rewrite <- prod_app. f_equal. rewrite <- (firstn_skipn j (firstn k facs)) at 2. f_equal. rewrite firstn_firstn. f_equal. lia. }
    rewrite P in *. rewrite S3 in R2. exists d, up. split; [exact E1|]. split; [exact R1|]. exact R2.
Qed.
Lemma get_deriv1_T k x full psi : nth_error facs k = Some x ->
  exists d up, get_deriv1 K is0 sched T my_amp cosT sinT u true psi k true None full = Ok (d, Some up) /\
    (full = true -> veq m d (dprodT k x psi)).
Proof.
  intros Hk. destruct (items_split k x Hk) as [S1 [S2 [S3 [S4 S5]]]].
  unfold get_deriv1, gen_fac. fold facs. fold items. rewrite Um. cbv iota.
  assert (L : rev items = rev (skipn (S k) items) ++ (k, x) :: rev (firstn k items)).
  { rewrite S1 at 1. rewrite rev_app_distr. cbn [rev]. rewrite <- app_assoc. reflexivity. }
  rewrite L.
  destruct (deriv_loop_ok k true full (rev (skipn (S k) items)) (rev (firstn k items)) x None) with (psi := psi) (psi' := psi) as [d [up [E1 [R1 R2]]]].
  - rewrite <- L. apply Forall_rev, items_ok.
  - intros it Hit. apply in_rev in Hit. specialize (S5 _ Hit). lia.
  - intros it Hit. apply in_rev in Hit. specialize (S4 _ Hit). lia.
  - apply veq_refl.
  - exists d, up. split; [exact E1|]. intros ->. rewrite !map_rev, S2, S3 in R2. exact R2.
Qed.

Lemma gd_loop_ok full psi : forall c k, (c + k = n)%nat -> forall j us v, (us = Some j \/ (us = None /\ j = 0%nat)) -> (j <= k)%nat ->
  veq m v (prod false (firstn j facs) psi) ->
  exists ys, gd_loop K is0 sched T my_amp cosT sinT u true false full (seq k c) (Some v) us = (ys, None) /\ length ys = c /\
   forall p x, nth_error facs (k + p) = Some x -> exists d, nth_error ys p = Some d /\ veq m d (if full then dprod (k + p) x psi else dprod_part (k + p) x psi).
Proof.
  induction c as [|c IH]; intros k Hc j us v Hus Hj E.
  - exists []. split; [reflexivity|]. split; [reflexivity|]. intros p x Hp. exfalso. assert (k + p < length facs)%nat by (apply nth_error_Some; congruence). rewrite facs_len in *. lia.
  - cbn [seq gd_loop]. destruct (nth_error facs k) as [x|] eqn:Hk; [|exfalso; apply nth_error_None in Hk; rewrite facs_len in Hk; lia].
    destruct (get_deriv1_ok k x full v psi j us Hk Hus Hj E) as [d [up [E1 [R1 R2]]]]. rewrite E1.
    destruct (IH (S k) ltac:(lia) k (Some k) up (or_introl eq_refl) ltac:(lia) R1) as [ys [E2 [L2 H2]]].
    exists (d :: ys). split; [match goal with |- (let '(a, b) := ?X in _) = _ => replace X with (ys, @None exn) by (symmetry; exact E2) end; reflexivity|]. split; [cbn; lia|]. intros [|p] y Hp.
    + rewrite Nat.add_0_r in *. rewrite Hk in Hp. injection Hp as <-. exists d. split; [reflexivity|exact R2].
    + replace (k + S p)%nat with (S k + p)%nat in * by lia. cbn [nth_error]. apply H2. exact Hp.
Qed.
Lemma gen_deriv1_ok full psi : exists ys, gen_deriv1 K is0 sched T my_amp cosT sinT u true psi false full = (ys, None) /\ length ys = n /\
   forall p x, nth_error facs p = Some x -> exists d, nth_error ys p = Some d /\ veq m d (if full then dprod p x psi else dprod_part p x psi).
Proof.
  unfold gen_deriv1. cbv zeta. destruct (gd_loop_ok full psi n 0 ltac:(lia) 0 None psi) as [ys [E [L H]]]; auto; [apply veq_refl|].
  exists ys. split; [exact E|]. split; [exact L|]. intros p x Hp. apply (H p x Hp).
Qed.

Lemma gp_loop_ok l : okI l -> forall psi psi', veq m psi psi' -> exists ys, gp_loop K is0 sched T my_amp cosT sinT true m false l psi = Ok ys /\ length ys = length l /\
  forall p, (p < length l)%nat -> exists d, nth_error ys p = Some d /\ veq m d (prod false (firstn (S p) (map snd l)) psi').
Proof.
  induction 1 as [|[ix [g t]] l Hx Hl IH]; intros psi psi' E.
  - exists []. split; [reflexivity|]. split; [reflexivity|]. intros p Hp. cbn in Hp. lia.
  - cbn [gp_loop map snd]. destruct (op1u_ok (g, t) false psi psi' Hx E) as [r [E1 R1]]. cbn [fst snd] in E1. rewrite E1. cbn [bind].
    destruct (IH r _ R1) as [ys [E2 [L2 H2]]]. rewrite E2. cbn [bind]. exists (r :: ys). split; [reflexivity|]. split; [cbn; lia|].
    intros [|p] Hp; [exists r; split; [reflexivity|exact R1]|]. cbn [nth_error]. apply (H2 p). cbn in Hp. lia.
Qed.
Lemma gen_partial_ok psi psi' : veq m psi psi' -> exists ys, gen_partial K is0 sched T my_amp cosT sinT u true false psi = Ok ys /\ length ys = n /\
  forall p, (p < n)%nat -> exists d, nth_error ys p = Some d /\ veq m d (prod false (firstn (S p) facs) psi').
Proof.
  intros E. unfold gen_partial, gen_fac. fold facs. fold items. rewrite Um.
  destruct (gp_loop_ok items items_ok psi psi' E) as [ys [E1 [L H]]]. exists ys. split; [exact E1|].
  assert (IL : length items = n) by (unfold items; rewrite combine_length, seq_length, facs_len; lia).
  rewrite IL in *. split; [exact L|]. intros p Hp. destruct (H p Hp) as [d [D1 D2]]. exists d. split; [exact D1|]. now rewrite items_snd in D2.
Qed.
End Op.

Lemma dot_inner (u v : vec) : dot K m u v = inner m u v.
Proof. unfold dot, FockSpec.inner, nrange, dets, bit. f_equal. f_equal. f_equal. rewrite N.shiftl_1_l. rewrite N2Nat.inj_pow. cbn. now rewrite Nat2N.id. Qed.

(** energy and its derivatives *)
Lemma obj_fun_ok (u : uop) hop psi0 x : u_norb T u = m -> Forall (sane m) (u_gens T u) -> length x = length (u_gens T u) ->
  (forall v w, veq m v w -> veq m (hop v) (hop w)) ->
  let u' := set_amps T u x in
  let upsi := prod false (facs u') psi0 in
  exists e jac, obj_fun K is0 sched T my_amp cosT sinT u hop psi0 x = Ok (e, jac) /\ e = inner m upsi (hop upsi) /\ length jac = length (u_gens T u) /\
    forall k y, nth_error (facs u') k = Some y -> nth_error jac k = Some ((s1 + s1) * inner m (dprod u' k y psi0) (hop upsi)).
Proof.
  intros Um Us Hx Hext u' upsi.
  assert (Um' : u_norb T u' = m) by exact Um. assert (Us' : Forall (sane m) (u_gens T u')) by exact Us.
  assert (Ul' : length (u_amps T u') = length (u_gens T u')) by exact Hx.
  unfold obj_fun. fold u'. cbv zeta.
  destruct (call_ok u' Um' Us' Ul' false psi0 psi0 (veq_refl _)) as [r [-> R]]. cbn [bind].
  destruct (call_ok u' Um' Us' Ul' true (hop r) (hop upsi) (Hext _ _ R)) as [w [-> W]]. cbn [bind].
  destruct (gen_deriv1_ok u' Um' Us' Ul' false psi0) as [dus [-> [D1 D2]]].
  destruct (gen_partial_ok u' Um' Us' Ul' w _ W) as [uhus [-> [P1 P2]]]. cbn [bind].
  eexists. eexists. split; [reflexivity|]. rewrite Um'. split; [|split].
  - rewrite dot_inner. apply inner_ext; [exact R|]. now apply Hext.
  - rewrite map_length, combine_length. change (length (u_gens T u)) with (length (u_gens T u')). lia.
  - intros k y Hk. destruct (D2 k y Hk) as [d [N1 V1]].
    assert (FL : length (facs u') = length (u_gens T u')) by (unfold facs; rewrite combine_length; lia).
    assert (Hl : (k < length (u_gens T u'))%nat) by (rewrite <- FL; apply nth_error_Some; congruence).
    destruct (P2 k Hl) as [p [N2 V2]].
    assert (C : nth_error (combine dus uhus) k = Some (d, p)).
    { clear - N1 N2. revert dus uhus N1 N2. induction k; intros [|a dus] [|b uhus] N1 N2; cbn in *; try discriminate; [congruence|]. now apply IHk. }
    rewrite (map_nth_error _ _ _ C). cbn [fst snd]. do 2 f_equal. rewrite dot_inner. cbv iota in V1.
    pose proof (facs_ok u' Us') as FO.
    assert (SP : facs u' = firstn k (facs u') ++ y :: skipn (S k) (facs u')).
    { clear - Hk. revert k Hk. generalize (facs u') as l. induction l as [|z l IH]; intros [|k] Hk; cbn in *; try discriminate; [now injection Hk as ->|]. f_equal. now apply IH. }
    assert (O1 : Forall (fun x => ok x) (firstn (S k) (facs u'))) by (rewrite <- (firstn_skipn (S k)) in FO; now apply Forall_app in FO).
    assert (O2 : Forall (fun x => ok x) (skipn (S k) (facs u'))) by (rewrite <- (firstn_skipn (S k)) in FO; now apply Forall_app in FO).
    transitivity (inner m (dprod_part u' k y psi0) (prod true (rev (skipn (S k) (facs u'))) (hop upsi))).
    + apply inner_ext; [exact V1|]. eapply veq_trans; [exact V2|]. cbn [negb].
      rewrite <- (firstn_skipn (S k) (facs u')) at 2. rewrite rev_app_distr, prod_app. apply (prod_rev' false (firstn (S k) (facs u')) O1).
    + unfold dprod. fold (dprod_part u' k y psi0). symmetry. apply (prod_adj false (skipn (S k) (facs u')) O2).
Qed.
End Ucc.
