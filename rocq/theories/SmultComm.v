(** Commutators of the ladder operators with strings of field operators. *)
From Coq Require Import List NArith Arith Bool ZArith Reals Lia Lra Ring.
From Verif Require Import Star FockSpec FockFacts FockOps SpinRot LsisUpdModel SmultSpec SmultAlg.
Import ListNotations.

Section Gen.
Variable K : star_ring.
Add Ring Kring : (sring K).
Local Open Scope star_scope.
Notation vec := (vec K). Notation cre := (cre K). Notation ann := (ann K).
Lemma bsum_cons {X} (x : X) l (f : X -> K) : bsum (x :: l) f = f x + bsum l f. Proof. reflexivity. Qed.
Variable n : nat.
Let m := (2 * n)%nat.
Lemma cre_bsum {X} p (l : list X) (F : X -> vec) e : cre m p (fun d => bsum l (fun x => F x d)) e = bsum l (fun x => cre m p (F x) e).
Proof.
  induction l as [|x l IH]; [apply (cre_0 K); reflexivity|]. rewrite bsum_cons, <- IH. transitivity (cre m p (fun d => s1 * F x d + s1 * bsum l (fun x => F x d)) e); [apply cre_v; intros d; rewrite bsum_cons; ring|]. rewrite cre_l. ring.
Qed.
Lemma ann_bsum {X} p (l : list X) (F : X -> vec) e : ann m p (fun d => bsum l (fun x => F x d)) e = bsum l (fun x => ann m p (F x) e).
Proof.
  induction l as [|x l IH]; [apply (ann_0 K); reflexivity|]. rewrite bsum_cons, <- IH. transitivity (ann m p (fun d => s1 * F x d + s1 * bsum l (fun x => F x d)) e); [apply ann_v; intros d; rewrite bsum_cons; ring|]. rewrite ann_l. ring.
Qed.
Definition tr (o o' : nat) (v : vec) : vec := fun e => bsum (seq 0 n) (fun p => cre m (p + o) (ann m (p + o') v) e).
Lemma tr_cre o o' r (v : vec) e : (o <= n)%nat -> (o' <= n)%nat -> (r < m)%nat -> tr o o' (cre m r v) e = cre m r (tr o o' v) e + bsum (seq 0 n) (fun p => if (p + o' =? r)%nat then cre m (p + o) v e else s0).
Proof.
  intros Ho Ho' Hr. unfold tr. rewrite cre_bsum, <- bsum_add. apply bsum_ext. intros p I. apply in_seq in I. apply E_cre; unfold m in *; lia.
Qed.
Lemma tr_ann o o' r (v : vec) e : (o <= n)%nat -> (o' <= n)%nat -> (r < m)%nat -> tr o o' (ann m r v) e = ann m r (tr o o' v) e + bsum (seq 0 n) (fun p => if (p + o =? r)%nat then - ann m (p + o') v e else s0).
Proof.
  intros Ho Ho' Hr. unfold tr. rewrite ann_bsum, <- bsum_add. apply bsum_ext. intros p I. apply in_seq in I. rewrite E_ann by (unfold m in *; lia). cbv beta. change (fun d : N => cre m (p + o) (ann m (p + o') v) d) with (cre m (p + o) (ann m (p + o') v)). destruct (p + o =? r)%nat; ring.
Qed.
Lemma hit (f : nat -> K) o r : (r < n)%nat -> bsum (seq 0 n) (fun p => if (p + o =? r + o)%nat then f p else s0) = f r.
Proof.
  intros Hr. rewrite (bsum_single K (seq 0 n) _ r); [|apply seq_NoDup|apply in_seq; lia|intros y _ N; destruct (Nat.eqb_spec (y + o) (r + o)); [lia|reflexivity]]. now rewrite Nat.eqb_refl.
Qed.
Lemma miss (f : nat -> K) o r : (forall p, (p < n)%nat -> (p + o)%nat <> r) -> bsum (seq 0 n) (fun p => if (p + o =? r)%nat then f p else s0) = s0.
Proof. intros H. apply bsum_0. intros p I. apply in_seq in I. destruct (Nat.eqb_spec (p + o) r); [destruct (H p); lia|reflexivity]. Qed.
Lemma Sp_tr (v : vec) e : Splus K n v e = tr 0 n v e. Proof. unfold Splus, tr. apply bsum_ext. intros. now rewrite Nat.add_0_r. Qed.
Lemma Sm_tr (v : vec) e : Sminus K n v e = tr n 0 v e. Proof. unfold Sminus, tr. apply bsum_ext. intros. now rewrite Nat.add_0_r. Qed.
Lemma tr_v o o' (u v : vec) e : (forall d, u d = v d) -> tr o o' u e = tr o o' v e.
Proof. intros H. apply bsum_ext. intros p _. apply cre_v. intros d. now apply ann_v. Qed.
Lemma tr_adj o o' (u v : vec) : (o <= n)%nat -> (o' <= n)%nat -> inner K m u (tr o o' v) = inner K m (tr o' o u) v.
Proof.
  intros Ho Ho'. unfold tr. transitivity (bsum (seq 0 n) (fun p => inner K m u (cre m (p + o) (ann m (p + o') v)))).
  - unfold inner. rewrite bsum_swap. apply bsum_ext. intros d _. apply bsum_mul_l.
  - transitivity (bsum (seq 0 n) (fun p => inner K m (cre m (p + o') (ann m (p + o) u)) v)).
    + apply bsum_ext. intros p I. apply in_seq in I. rewrite cre_adj, ann_adj by (unfold m; lia). reflexivity.
    + unfold inner. rewrite bsum_swap. apply bsum_ext. intros d _. rewrite bsum_conj, bsum_mul_r. reflexivity.
Qed.
Lemma cre_veq p (u v : vec) : veq K m u v -> veq K m (cre m p u) (cre m p v).
Proof. intros H d Hd. unfold FockSpec.cre. destruct (bt d p); [|reflexivity]. rewrite H; [reflexivity|]. now apply cb_lt. Qed.
Lemma ann_veq p (u v : vec) : (p < m)%nat -> veq K m u v -> veq K m (ann m p u) (ann m p v).
Proof. intros Hp H d Hd. unfold FockSpec.ann. destruct (bt d p); [reflexivity|]. rewrite H; [reflexivity|]. now apply sb_lt. Qed.
End Gen.

Local Open Scope R_scope.
Ltac rring := match goal with |- ?a = ?b => change (@eq R a b) end; ring.
(** (creation?, spin down?, orbital) *)
Notation fop := (bool * bool * nat)%type (only parsing).
Section Strings.
Variable n : nat.
Definition op (x : fop) : vec Rs -> vec Rs := let '(c, b, p) := x in if c then C n b p else A n b p.
Definition str (l : list fop) (v : vec Rs) : vec Rs := fold_right op v l.
Definition okf (x : fop) : Prop := (snd x < n)%nat.
Definition dP1 (x : fop) : list (R * fop) := let '(c, b, p) := x in match c, b with true, true => [(1, (true, false, p))] | false, false => [(- (1), (false, true, p))] | _, _ => [] end.
Definition dM1 (x : fop) : list (R * fop) := let '(c, b, p) := x in match c, b with true, false => [(1, (true, true, p))] | false, true => [(- (1), (false, false, p))] | _, _ => [] end.
Fixpoint der (d : fop -> list (R * fop)) (l : list fop) : list (R * list fop) :=
  match l with [] => [] | x :: r => map (fun cy => (fst cy, snd cy :: r)) (d x) ++ map (fun cl => (fst cl, x :: snd cl)) (der d r) end.
Definition vcomb (L : list (R * list fop)) (v : vec Rs) : vec Rs := fun e => fold_right (fun cl r => fst cl * str (snd cl) v e + r) 0 L.
Lemma op_v x (u v : vec Rs) e : (forall d, u d = v d) -> op x u e = op x v e.
Proof. intros H. destruct x as [[[] b] p]; [now apply cre_v|now apply ann_v]. Qed.
Lemma op_l x (a b : R) (u v : vec Rs) e : op x (fun d => a * u d + b * v d) e = a * op x u e + b * op x v e.
Proof. destruct x as [[[] s] p]; [exact (cre_l Rs (2 * n) (so n s p) a b u v e)|exact (ann_l Rs (2 * n) (so n s p) a b u v e)]. Qed.
Lemma op_veq x (u v : vec Rs) : okf x -> veq Rs (2 * n) u v -> veq Rs (2 * n) (op x u) (op x v).
Proof. intros Hx H. destruct x as [[[] s] p]; [now apply cre_veq|]. apply ann_veq; [|exact H]. unfold okf in Hx. cbn in Hx. unfold so. destruct s; lia. Qed.
Lemma op_vcomb x L v e : op x (vcomb L v) e = vcomb (map (fun cl => (fst cl, x :: snd cl)) L) v e.
Proof.
  induction L as [|[c l] L IH]; [destruct x as [[[] s] p]; [apply (cre_0 Rs)|apply (ann_0 Rs)]; reflexivity|]. cbn [map vcomb fold_right fst snd]. unfold vcomb in *. rewrite <- IH.
  transitivity (op x (fun d => c * str l v d + 1 * fold_right (fun cl r => fst cl * str (snd cl) v d + r) 0 L) e); [apply op_v; intros d; cbn [fold_right fst snd]; rring|]. rewrite op_l. unfold str. cbn [fold_right]. rring.
Qed.
Lemma vcomb_app L L' v e : vcomb (L ++ L') v e = vcomb L v e + vcomb L' v e.
Proof. unfold vcomb. induction L as [|cl L IH]; cbn [app fold_right]; [rring|]. rewrite IH. rring. Qed.
(** a ladder operator: its commutator with one field operator, and adjoint *)
Definition ladder_op (T T' : vec Rs -> vec Rs) (d : fop -> list (R * fop)) : Prop :=
  (forall x v e, okf x -> T (op x v) e = op x (T v) e + vcomb (map (fun cy => (fst cy, [snd cy])) (d x)) v e) /\
  (forall u v, inner Rs (2 * n) u (T v) = inner Rs (2 * n) (T' u) v).
Lemma Sp_ladder : ladder_op (Splus Rs n) (Sminus Rs n) dP1.
Proof.
  split.
  - intros x v e Hx. rewrite Sp_tr. destruct x as [[c b] p]. unfold okf in Hx. cbn in Hx. rewrite (op_v (c, b, p) (Splus Rs n v) (tr Rs n 0 n v) e (Sp_tr Rs n v)). destruct c, b; cbn [op dP1 map vcomb fold_right fst snd str]; unfold C, A, so.
    + rewrite tr_cre by lia.  rewrite (hit Rs n (fun q => cre Rs (2 * n) (q + 0) v e) n p Hx). rewrite Nat.add_0_r. cbn [sadd sopp s0 Rs car]. rring.
    + rewrite tr_cre by lia.  rewrite (miss Rs n (fun q => cre Rs (2 * n) (q + 0) v e)) by (intros; lia). cbn [sadd sopp s0 Rs car]. rring.
    + rewrite tr_ann by lia.  rewrite (miss Rs n (fun q => sopp (ann Rs (2 * n) (q + n) v e))) by (intros; lia). cbn [sadd sopp s0 Rs car]. rring.
    + rewrite tr_ann by lia.  replace (bsum (K := Rs) (seq 0 n) (fun q => if (q + 0 =? p)%nat then sopp (ann Rs (2 * n) (q + n) v e) else s0)) with (bsum (K := Rs) (seq 0 n) (fun q => if (q + 0 =? p + 0)%nat then sopp (ann Rs (2 * n) (q + n) v e) else s0)) by (apply bsum_ext; intros q _; now rewrite (Nat.add_0_r p)). rewrite (hit Rs n (fun q => sopp (ann Rs (2 * n) (q + n) v e)) 0 p Hx). cbn [sadd sopp s0 Rs car]. rring.
  - intros u v. transitivity (inner Rs (2 * n) u (tr Rs n 0 n v)); [apply inner_ext; intros d _; [reflexivity|apply Sp_tr]|]. rewrite tr_adj by lia. apply inner_ext; intros d _; [symmetry; apply Sm_tr|reflexivity].
Qed.
Lemma Sm_ladder : ladder_op (Sminus Rs n) (Splus Rs n) dM1.
Proof.
  split.
  - intros x v e Hx. rewrite Sm_tr. destruct x as [[c b] p]. unfold okf in Hx. cbn in Hx. rewrite (op_v (c, b, p) (Sminus Rs n v) (tr Rs n n 0 v) e (Sm_tr Rs n v)). destruct c, b; cbn [op dM1 map vcomb fold_right fst snd str]; unfold C, A, so.
    + rewrite tr_cre by lia.  rewrite (miss Rs n (fun q => cre Rs (2 * n) (q + n) v e)) by (intros; lia). cbn [sadd sopp s0 Rs car]. rring.
    + rewrite tr_cre by lia.  replace (bsum (K := Rs) (seq 0 n) (fun q => if (q + 0 =? p)%nat then cre Rs (2 * n) (q + n) v e else s0)) with (bsum (K := Rs) (seq 0 n) (fun q => if (q + 0 =? p + 0)%nat then cre Rs (2 * n) (q + n) v e else s0)) by (apply bsum_ext; intros q _; now rewrite (Nat.add_0_r p)). rewrite (hit Rs n (fun q => cre Rs (2 * n) (q + n) v e) 0 p Hx). cbn [sadd sopp s0 Rs car]. rring.
    + rewrite tr_ann by lia.  rewrite (hit Rs n (fun q => sopp (ann Rs (2 * n) (q + 0) v e)) n p Hx). rewrite Nat.add_0_r. cbn [sadd sopp s0 Rs car]. rring.
    + rewrite tr_ann by lia.  rewrite (miss Rs n (fun q => sopp (ann Rs (2 * n) (q + 0) v e))) by (intros; lia). cbn [sadd sopp s0 Rs car]. rring.
  - intros u v. transitivity (inner Rs (2 * n) u (tr Rs n n 0 v)); [apply inner_ext; intros d _; [reflexivity|apply Sm_tr]|]. rewrite tr_adj by lia. apply inner_ext; intros d _; [symmetry; apply Sp_tr|reflexivity].
Qed.
Lemma ladder_str T T' d l : ladder_op T T' d -> Forall okf l -> forall v e, T (str l v) e = str l (T v) e + vcomb (der d l) v e.
Proof.
  intros [H _] Hl. induction Hl as [|x l Hx Hl IH]; intros v e; [symmetry; apply Rplus_0_r|]. cbn [str fold_right]. fold (str l v). fold (str l (T v)). rewrite (H x _ e Hx). cbn [der]. rewrite vcomb_app.
  rewrite (op_v x (T (str l v)) (fun e => 1 * str l (T v) e + 1 * vcomb (der d l) v e) e) by (intros d0; rewrite IH; rring). rewrite op_l, op_vcomb.
  assert (E : vcomb (map (fun cy => (fst cy, [snd cy])) (d x)) (str l v) e = vcomb (map (fun cy => (fst cy, snd cy :: l)) (d x)) v e). { unfold vcomb. induction (d x) as [|[c y] r IHr]; [reflexivity|]. cbn [map fold_right fst snd]. rewrite IHr. reflexivity. }
  rewrite E. rring.
Qed.
Lemma str_veq l (u v : vec Rs) : Forall okf l -> veq Rs (2 * n) u v -> veq Rs (2 * n) (str l u) (str l v).
Proof. intros Hl H. induction Hl as [|x l Hx Hl IH]; [exact H|]. apply op_veq; assumption. Qed.
Lemma str_mul l (c : R) v e : str l (fun d => c * v d) e = c * str l v e.
Proof.
  revert e. induction l as [|x l IH]; intros e; [reflexivity|]. cbn [str fold_right]. fold (str l v). rewrite (op_v x _ (fun d => c * str l v d + 0 * str l v d) e); [rewrite op_l; rring|]. intros d. transitivity (c * str l v d); [exact (IH d)|rring].
Qed.

(** ** matrix elements *)
Variables (S' S : Z) (psi' psi : Z -> vec Rs).
Hypothesis Hb : multiplet n S' psi'.
Hypothesis Hk : multiplet n S psi.
Definition E (l : list fop) : Z -> Z -> R := el n psi' psi (str l).
Definition comb (L : list (R * list fop)) (M' M : Z) : R := fold_right (fun cl r => fst cl * E (snd cl) M' M + r) 0 L.
Lemma inner_scale_r (u v : vec Rs) (c : R) : inner Rs (2 * n) u (fun d => c * v d) = c * inner Rs (2 * n) u v. Proof. exact (inner_mul_r Rs (2 * n) u v c). Qed.
Lemma inner_scale_l (u v : vec Rs) (c : R) : inner Rs (2 * n) (fun d => c * u d) v = c * inner Rs (2 * n) u v. Proof. exact (inner_mul_l Rs (2 * n) v u c). Qed.
Lemma inner_plus (u v w : vec Rs) : inner Rs (2 * n) u (fun d => v d + w d) = inner Rs (2 * n) u v + inner Rs (2 * n) u w. Proof. exact (inner_add_r Rs (2 * n) u v w). Qed.
Lemma comb_inner L M' M : inner Rs (2 * n) (psi' M') (vcomb L (psi M)) = comb L M' M.
Proof.
  induction L as [|[c l] L IH].
  - unfold inner, vcomb, comb. apply (bsum_0 Rs). intros d _. cbn [fold_right]. cbn [smul Rs]. apply Rmult_0_r.
  - change (vcomb ((c, l) :: L) (psi M)) with (fun d => c * str l (psi M) d + vcomb L (psi M) d). rewrite inner_plus, inner_scale_r, IH. reflexivity.
Qed.
Lemma comm_P l : Forall okf l -> commP S' S (E l) (comb (der dP1 l)).
Proof.
  intros Hl M' M HM' HM. rewrite <- comb_inner. unfold E, el.
  assert (X : inner Rs (2 * n) (psi' M') (Splus Rs n (str l (psi M))) = inner Rs (2 * n) (psi' M') (str l (Splus Rs n (psi M))) + inner Rs (2 * n) (psi' M') (vcomb (der dP1 l) (psi M))).
  { rewrite <- inner_plus. apply inner_ext; intros d _; [reflexivity|]. apply (ladder_str _ _ _ _ Sp_ladder Hl). }
  rewrite (proj2 Sp_ladder) in X. rewrite (inner_ext Rs (2 * n) _ (fun e => down S' M' * psi' (M' - 2)%Z e) _ (str l (psi M))) in X; [|exact (proj1 (Hb M' HM'))|intros d _; reflexivity]. rewrite inner_scale_l in X.
  rewrite (inner_ext Rs (2 * n) (psi' M') (psi' M') (str l (Splus Rs n (psi M))) (fun e => up S M * str l (psi (M + 2)%Z) e)) in X; [|intros d _; reflexivity|].
  - rewrite inner_scale_r in X. lra.
  - intros d Hd. rewrite <- str_mul. exact (str_veq l _ _ Hl (proj2 (Hk M HM)) d Hd).
Qed.
Lemma comm_M l : Forall okf l -> commM S' S (E l) (comb (der dM1 l)).
Proof.
  intros Hl M' M HM' HM. rewrite <- comb_inner. unfold E, el.
  assert (X : inner Rs (2 * n) (psi' M') (Sminus Rs n (str l (psi M))) = inner Rs (2 * n) (psi' M') (str l (Sminus Rs n (psi M))) + inner Rs (2 * n) (psi' M') (vcomb (der dM1 l) (psi M))).
  { rewrite <- inner_plus. apply inner_ext; intros d _; [reflexivity|]. apply (ladder_str _ _ _ _ Sm_ladder Hl). }
  rewrite (proj2 Sm_ladder) in X. rewrite (inner_ext Rs (2 * n) _ (fun e => up S' M' * psi' (M' + 2)%Z e) _ (str l (psi M))) in X; [|exact (proj2 (Hb M' HM'))|intros d _; reflexivity]. rewrite inner_scale_l in X.
  rewrite (inner_ext Rs (2 * n) (psi' M') (psi' M') (str l (Sminus Rs n (psi M))) (fun e => down S M * str l (psi (M - 2)%Z) e)) in X; [|intros d _; reflexivity|].
  - rewrite inner_scale_r in X. lra.
  - intros d Hd. rewrite <- str_mul. exact (str_veq l _ _ Hl (proj1 (Hk M HM)) d Hd).
Qed.
(** two creators, or two annihilators, anticommute *)
Lemma E_swap l c b b' p p' r M' M : (p < n)%nat -> (p' < n)%nat -> E (l ++ (c, b, p) :: (c, b', p') :: r) M' M = - E (l ++ (c, b', p') :: (c, b, p) :: r) M' M.
Proof.
  intros Hp Hp'. assert (Q : forall v e, str (l ++ (c, b, p) :: (c, b', p') :: r) v e = -1 * str (l ++ (c, b', p') :: (c, b, p) :: r) v e).
  { intros v. induction l as [|x l IH]; intros e.
    - cbn [app str fold_right op]. fold (str r v). unfold C, A. destruct c; [rewrite cre_cre by (unfold so; destruct b, b'; lia)|rewrite ann_ann by (unfold so; destruct b, b'; lia)]; cbn; rring.
    - cbn [app str fold_right]. fold (str (l ++ (c, b, p) :: (c, b', p') :: r) v). fold (str (l ++ (c, b', p') :: (c, b, p) :: r) v). rewrite (op_v x _ (fun d => -1 * str (l ++ (c, b', p') :: (c, b, p) :: r) v d + 0 * v d) e); [rewrite op_l; rring|]. intros d. rewrite IH. rring. }
  unfold E, el. transitivity (inner Rs (2 * n) (psi' M') (fun d => -1 * str (l ++ (c, b', p') :: (c, b, p) :: r) (psi M) d)); [apply (inner_ext Rs); intros d _; [reflexivity|apply Q]|]. rewrite inner_scale_r. rring.
Qed.
End Strings.
