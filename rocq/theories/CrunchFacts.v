(** Matrix elements of operator strings between the local states of the fragments of an interaction. *)
From Coq Require Import List NArith ZArith Arith Bool Btauto Lia Sorting.Permutation.
From Verif Require Import Base BaseFacts Star FockSpec FockFacts FockOps ProdFock PermFock LprodSpec LasFock LasElem SignsFacts CrunchModel CrunchSpec.
Import ListNotations.
Local Open Scope nat_scope.

Section Signs.
Variables (nf : nat) (P : nat -> bool).
Lemma abv_ext b b' f : (forall g, g < nf -> P g = true -> b g = b' g) -> abv nf P b f = abv nf P b' f.
Proof. intros H. apply parity_ext. intros g Hg. apply in_seq in Hg. destruct (P g) eqn:E; [|reflexivity]. rewrite H by (auto; lia). reflexivity. Qed.
Lemma rsign_ext b b' fs : (forall g, g < nf -> P g = true -> b g = b' g) -> rsign nf P b fs = rsign nf P b' fs.
Proof. intros H. induction fs as [|f fs IH]; [reflexivity|]. cbn [rsign]. now rewrite IH, (abv_ext b b'). Qed.
Lemma abv_moved b fs f : (forall g, In g fs -> P g = true /\ g < nf) -> abv nf P (moved b fs) f = xorb (abv nf P b f) (parity (Nat.ltb f) fs).
Proof.
  intros H. rewrite <- (parity_count_above nf fs f) by (intros y Hy; now apply H). unfold abv. rewrite <- parity_xor. apply parity_ext. intros g _. unfold moved.
  destruct (P g) eqn:E; cbn [andb].
  - destruct (f <? g), (b g), (parity _ _); reflexivity.
  - rewrite (parity_false (Nat.eqb g) fs); [now destruct (f <? g)|]. intros y Hy. destruct (Nat.eqb_spec g y) as [->|]; [|reflexivity]. destruct (H y Hy). congruence.
Qed.
Lemma rsign_snoc b fs f : (forall g, In g (fs ++ [f]) -> P g = true /\ g < nf) -> rsign nf P b (fs ++ [f]) = xorb (rsign nf P (moved b [f]) fs) (abv nf P b f).
Proof.
  induction fs as [|x fs IH]; intros H; cbn [app rsign].
  - change (parity (Nat.ltb f) []) with false. now rewrite xorb_false_r.
  - rewrite IH by (intros; apply H; now right). rewrite parity_app. rewrite (abv_moved b [f] x) by (intros g [<-|[]]; apply H; right; apply in_or_app; right; now left).
    rewrite !parity_cons. change (parity (Nat.ltb x) []) with false. btauto.
Qed.
Lemma rsign_rev b fs : (forall g, In g fs -> P g = true /\ g < nf) -> rsign nf P (moved b fs) (rev fs) = rsign nf P b fs.
Proof.
  revert b. induction fs as [|f fs IH]; intros b H; [reflexivity|]. cbn [rev]. rewrite rsign_snoc.
  - rewrite (rsign_ext (moved (moved b (f :: fs)) [f]) (moved b fs)).
    + rewrite IH by (intros; apply H; now right). cbn [rsign]. f_equal. rewrite abv_moved by exact H. rewrite parity_cons, Nat.ltb_irrefl. now rewrite xorb_false_l.
    + intros g _ _. unfold moved. rewrite !parity_cons. change (parity (Nat.eqb g) []) with false. destruct (b g), (g =? f), (parity _ _); reflexivity.
  - intros g Hg. apply H. rewrite in_app_iff in Hg. destruct Hg as [Hg|[<-|[]]]; [right; now apply in_rev|now left].
Qed.
Lemma rsign_swap b pre f g post : (forall x, In x (pre ++ f :: g :: post) -> x < nf) ->
  rsign nf P b (pre ++ f :: g :: post) = xorb (negb (f =? g)) (rsign nf P b (pre ++ g :: f :: post)).
Proof.
  intros H. induction pre as [|x pre IH]; cbn [app rsign].
  - rewrite !parity_cons. assert (E : xorb (f <? g) (g <? f) = negb (f =? g)) by (destruct (Nat.ltb_spec f g), (Nat.ltb_spec g f), (Nat.eqb_spec f g); try lia; reflexivity).
    rewrite <- E. btauto.
  - rewrite IH by (intros; apply H; now right). rewrite !parity_app, !parity_cons. btauto.
Qed.
End Signs.

Section Local.
Variables (K : star_ring) (nf : nat) (n : nat -> nat).
Add Ring Kr : (sring K).
Local Open Scope star_scope.
Definition okat (f : nat) (x : opr) : Prop := opfrag x = f /\ (snd (snd x) < n f)%nat.
Definition flip (x : opr) : opr := (negb (fst x), snd x).
Lemma lops_app ops ops' (v : vec K) : lops K n (ops ++ ops') v = lops K n ops (lops K n ops' v).
Proof. unfold lops. apply fold_right_app. Qed.
Lemma lorb_lt f dn l : (l < n f)%nat -> (lorb n f dn l < 2 * n f)%nat.
Proof. unfold lorb. destruct dn; lia. Qed.
Lemma lops_adj f ops : forall u v : vec K, Forall (okat f) ops -> inner K (2 * n f) (lops K n ops u) v = inner K (2 * n f) u (lops K n (rev (map flip ops)) v).
Proof.
  induction ops as [|[k [[g dn] l]] ops IH]; intros u v F; [reflexivity|]. apply Forall_cons_iff in F as [[Hg Hl] F']. cbn in Hg, Hl. subst g. cbn [map rev]. rewrite lops_app. rewrite <- IH by exact F'.
  cbn [lops fold_right flip fst snd negb]. fold (lops K n ops u). destruct k; cbn [field negb].
  - apply cre_adj, lorb_lt, Hl.
  - apply ann_adj, lorb_lt, Hl.
Qed.
Lemma lops_ext f ops : Forall (okat f) ops -> forall u v : vec K, veq K (2 * n f) u v -> veq K (2 * n f) (lops K n ops u) (lops K n ops v).
Proof.
  induction 1 as [|[k [[g dn] l]] ops [Hg Hl] F IH]; intros u v E; [exact E|]. cbn in Hg, Hl. subst g. cbn [lops fold_right]. apply (fld_ext K k); [now apply lorb_lt|]. apply IH, E.
Qed.
Lemma field_opp f k p (v : vec K) d : field K (2 * n f) p k (fun e => - v e) d = - field K (2 * n f) p k v d.
Proof. destruct k; cbn [field]; unfold cre, ann; destruct (bt d p); try ring; apply sg_opp. Qed.
Lemma lops_opp f ops : Forall (okat f) ops -> forall (v : vec K) d, lops K n ops (fun e => - v e) d = - lops K n ops v d.
Proof.
  induction 1 as [|[k [[g dn] l]] ops [Hg Hl] F IH]; intros v d; [reflexivity|]. cbn in Hg, Hl. subst g. cbn [lops fold_right]. rewrite <- field_opp.
  destruct k; cbn [field]; unfold cre, ann; destruct (bt d (lorb n f dn l)); try reflexivity; apply (f_equal (sg K _)); apply IH.
Qed.
Lemma lops_swap f k a b pre post (v : vec K) d : Forall (okat f) (pre ++ (k, a) :: (k, b) :: post) -> (d < 2 ^ N.of_nat (2 * n f))%N ->
  lops K n (pre ++ (k, a) :: (k, b) :: post) v d = - lops K n (pre ++ (k, b) :: (k, a) :: post) v d.
Proof.
  intros F Hd. rewrite !lops_app. apply Forall_app in F as [Fp F]. apply Forall_cons_iff in F as [Ha F2]. apply Forall_cons_iff in F2 as [Hb F3].
  rewrite <- (lops_opp f pre Fp). apply (lops_ext f pre Fp); [|exact Hd]. intros e He. destruct a as [[ga da] la], b as [[gb db] lb]. destruct Ha as [Ea La], Hb as [Eb Lb]. cbn in Ea, La, Eb, Lb. subst ga gb.
  cbn [lops fold_right]. fold (lops K n post v). destruct k; cbn [field].
  - apply cre_cre; now apply lorb_lt.
  - apply ann_ann; now apply lorb_lt.
Qed.
End Local.

Lemma filter_rev {A} (p : A -> bool) l : filter p (rev l) = rev (filter p l).
Proof. induction l as [|x l IH]; [reflexivity|]. cbn [rev filter]. rewrite filter_app, IH. cbn [filter]. destruct (p x); [reflexivity|apply app_nil_r]. Qed.
Section Lel.
Variables (K : star_ring) (nf : nat) (n : nat -> nat).
Add Ring Kr2 : (sring K).
Variables (V : nat -> nat -> nat -> vec K) (ne : nat -> nat -> nat * nat).
Local Open Scope star_scope.
Notation el := (el K n V).
Notation lst := (nat * nat)%type.
Lemma el_conj f a b ops : Forall (okat n f) ops -> sconj (el f a b ops) = el f b a (rev (map flip ops)).
Proof. intros F. unfold CrunchSpec.el. rewrite <- inner_swap. now apply lops_adj. Qed.
Lemma el_swap f a b k x y pre post : Forall (okat n f) (pre ++ (k, x) :: (k, y) :: post) -> el f a b (pre ++ (k, x) :: (k, y) :: post) = - el f a b (pre ++ (k, y) :: (k, x) :: post).
Proof.
  intros F. unfold CrunchSpec.el. transitivity (inner K (2 * n f) (V f (fst a) (snd a)) (fun d => - s1 * lops K n (pre ++ (k, y) :: (k, x) :: post) (V f (fst b) (snd b)) d)).
  - apply inner_ext; [intros d _; reflexivity|]. intros d Hd. rewrite (lops_swap K n f k x y pre post) by assumption. ring.
  - rewrite inner_mul_r. ring.
Qed.
Definition sel (fr : list nat) : list nat := filter (fun f => mem f fr) (seq 0 nf).
Lemma in_sel fr f : In f (sel fr) <-> (f < nf)%nat /\ In f fr.
Proof. unfold sel. rewrite filter_In, in_seq, mem_iff. intuition lia. Qed.
Lemma bprod_perm l l' (g : nat -> K) : Permutation l l' -> bprod K l g = bprod K l' g.
Proof. unfold bprod. induction 1; cbn [fold_right] in *; [reflexivity| | |congruence]; [now rewrite IHPermutation|ring]. Qed.
Lemma sel_perm fr l : NoDup l -> (forall f, In f l <-> In f fr) -> (forall f, In f fr -> (f < nf)%nat) -> Permutation (sel fr) l.
Proof. intros N H L. apply NoDup_Permutation; [apply NoDup_filter, seq_NoDup|exact N|]. intros f. rewrite in_sel, H. split; [tauto|]. intros I. auto. Qed.
Definition pb (B : nat -> lst) (f : nat) : bool := Nat.odd (fst (ne f (fst (B f))) + snd (ne f (fst (B f)))).
Definition Lel (fr : list nat) (A B : nat -> lst) (ops : list opr) : K :=
  sg K (rsign nf (fun f => mem f fr) (pb B) (map opfrag ops)) (bprod K (sel fr) (fun f => el f (A f) (B f) (at_frag f ops))).
Lemma mem_ext f fr fr' : (In f fr <-> In f fr') -> mem f fr = mem f fr'.
Proof. intros H. apply eq_true_iff_eq. now rewrite !mem_iff. Qed.
Lemma rsign_extP P Q b fs : (forall f, (f < nf)%nat -> P f = Q f) -> rsign nf P b fs = rsign nf Q b fs.
Proof.
  intros H. induction fs as [|f fs IH]; [reflexivity|]. cbn [rsign]. rewrite IH. replace (abv nf Q b f) with (abv nf P b f); [reflexivity|]. apply parity_ext. intros g Hg. apply in_seq in Hg. rewrite H by lia. reflexivity.
Qed.
Lemma Lel_ext fr fr' A B A' B' ops : (forall f, In f fr <-> In f fr') -> (forall f, In f fr -> (f < nf)%nat -> A f = A' f /\ B f = B' f) -> Lel fr A B ops = Lel fr' A' B' ops.
Proof.
  intros H E. unfold Lel. rewrite (rsign_ext nf (fun f => mem f fr) (pb B) (pb B')) by (intros g Hg Pg; apply mem_iff in Pg; unfold pb; now rewrite (proj2 (E g Pg Hg))).
  rewrite (rsign_extP (fun f => mem f fr) (fun f => mem f fr')) by (intros f _; now apply mem_ext). apply (f_equal (sg K _)).
  assert (S : sel fr = sel fr') by (apply filter_ext; intros f; now apply mem_ext). rewrite <- S. apply bprod_ext. intros f Hf. apply in_sel in Hf as [Hf1 Hf2]. now destruct (E f Hf2 Hf1) as [-> ->].
Qed.
Lemma Forall_at f ops : Forall (okop nf n) ops -> Forall (okat n f) (at_frag f ops).
Proof. intros F. rewrite Forall_forall in *. intros x Hx. apply filter_In in Hx as [Hx E]. apply Nat.eqb_eq in E. specialize (F x Hx). destruct x as [k [[g dn] l]]. cbn in *. subst g. split; [reflexivity|]. cbn. tauto. Qed.
Lemma bprod_opp1 l (g h : nat -> K) f : NoDup l -> In f l -> g f = - h f -> (forall x, x <> f -> g x = h x) -> bprod K l g = - bprod K l h.
Proof.
  intros N I E O. induction l as [|x l IH]; [easy|]. change (bprod K (x :: l) g) with (g x * bprod K l g). change (bprod K (x :: l) h) with (h x * bprod K l h). inversion N as [|? ? Nx N']; subst. destruct I as [->|I].
  - rewrite E. rewrite (bprod_ext K l g h); [ring|]. intros y Hy. apply O. congruence.
  - rewrite (IH N' I). rewrite (O x) by congruence. ring.
Qed.
Lemma Lel_swap fr A B k x y pre post : Forall (okop nf n) (pre ++ (k, x) :: (k, y) :: post) -> (forall z, In z (pre ++ (k, x) :: (k, y) :: post) -> In (opfrag z) fr) ->
  Lel fr A B (pre ++ (k, x) :: (k, y) :: post) = - Lel fr A B (pre ++ (k, y) :: (k, x) :: post).
Proof.
  intros F I. unfold Lel. rewrite !map_app. cbn [map]. rewrite (rsign_swap nf).
  2:{ intros z Hz. change (opfrag (k, x) :: opfrag (k, y) :: map opfrag post) with (map opfrag ((k, x) :: (k, y) :: post)) in Hz. rewrite <- map_app in Hz. apply in_map_iff in Hz as (w & <- & Hw). rewrite Forall_forall in F. specialize (F w Hw). destruct w as [kw [[g dn] l]]. now destruct F. }
  set (r := rsign _ _ _ _). assert (Hx : In (opfrag (k, x)) (sel fr)).
  { apply in_sel. split; [|apply I; apply in_or_app; right; now left]. rewrite Forall_forall in F. specialize (F (k, x)). destruct x as [[g dn] l]. apply F. apply in_or_app; right; now left. }
  destruct (Nat.eqb_spec (opfrag (k, x)) (opfrag (k, y))) as [E|Ne]; cbn [negb].
  - rewrite xorb_false_l. rewrite (bprod_opp1 (sel fr) _ (fun f => el f (A f) (B f) (at_frag f (pre ++ (k, y) :: (k, x) :: post))) (opfrag (k, x))).
    + apply sg_opp.
    + apply NoDup_filter, seq_NoDup.
    + exact Hx.
    + pose proof (Forall_at (opfrag (k, x)) _ F) as Fa. unfold at_frag in *. rewrite !filter_app in *. cbn [filter] in *. rewrite <- !E, Nat.eqb_refl in *. now apply el_swap.
    + intros f Hf. f_equal. unfold at_frag. rewrite !filter_app. cbn [filter]. rewrite <- !E. destruct (Nat.eqb_spec (opfrag (k, x)) f); [congruence|reflexivity].
  - transitivity (- sg K r (bprod K (sel fr) (fun f => el f (A f) (B f) (at_frag f (pre ++ (k, x) :: (k, y) :: post))))); [destruct r; cbn; ring|]. f_equal. apply (f_equal (sg K r)). apply bprod_ext. intros f _. f_equal. unfold at_frag. rewrite !filter_app. f_equal. cbn [filter].
    destruct (Nat.eqb_spec (opfrag (k, x)) f), (Nat.eqb_spec (opfrag (k, y)) f); try reflexivity. congruence.
Qed.
Lemma Lel_conj fr A B ops : Forall (okop nf n) ops -> (forall z, In z ops -> In (opfrag z) fr) -> (forall f, In f fr -> (f < nf)%nat -> pb A f = moved (pb B) (map opfrag ops) f) ->
  sconj (Lel fr A B ops) = Lel fr B A (rev (map flip ops)).
Proof.
  intros F I M. unfold Lel. rewrite sg_conj. rewrite map_rev, map_map. replace (map (fun x => opfrag (flip x)) ops) with (map opfrag ops) by (apply map_ext; intros [k z]; reflexivity).
  rewrite (rsign_ext nf _ (pb A) (moved (pb B) (map opfrag ops))) by (intros g Hg Pg; apply mem_iff in Pg; auto).
  rewrite rsign_rev by (intros g Hg; apply in_map_iff in Hg as (w & <- & Hw); split; [apply mem_iff; auto|]; rewrite Forall_forall in F; specialize (F w Hw); destruct w as [kw [[g dn] l]]; now destruct F).
  apply (f_equal (sg K _)). unfold bprod. induction (sel fr) as [|f l IH]; [apply conj_one|]. cbn [fold_right]. rewrite sconj_mul, IH. f_equal. rewrite el_conj by now apply Forall_at. f_equal.
  unfold at_frag. rewrite filter_rev. f_equal. clear. induction ops as [|[k x] ops IH]; [reflexivity|]. cbn [filter map]. change (opfrag (flip (k, x))) with (opfrag (k, x)). destruct (opfrag (k, x) =? f)%nat; cbn [map]; now rewrite IH.
Qed.
Variable nl : nat -> nat -> nat.
Hypothesis Hne : forall f a i, (f < nf)%nat -> (i < nl f a)%nat -> has_nelec K (n f) (ne f a) (V f a i).
Lemma Lel_zero fr A B ops f : Forall (okop nf n) ops -> (f < nf)%nat -> In f fr -> st_in nl f (A f) -> st_in nl f (B f) ->
  (Z.of_nat (fst (ne f (fst (A f)))), Z.of_nat (snd (ne f (fst (A f))))) <> (Z.of_nat (fst (ne f (fst (B f)))) + gain f false ops, Z.of_nat (snd (ne f (fst (B f)))) + gain f true ops)%Z ->
  Lel fr A B ops = s0.
Proof.
  intros F Hf I SA SB N. unfold Lel. rewrite (bprod_0 K (sel fr) _ f); [apply sg_0|now apply in_sel|]. unfold CrunchSpec.el.
  exact (floc_zero nf n K (fun f => V f (fst (A f)) (snd (A f))) (fun f => ne f (fst (A f))) (fun f => V f (fst (B f)) (snd (B f))) (fun f => ne f (fst (B f))) ops f Hf (Hne _ _ _ Hf SA) (Hne _ _ _ Hf SB) F N).
Qed.
End Lel.
