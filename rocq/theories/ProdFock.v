(** Products of vectors of several Fock spaces ("fragments"), fragment 0 in the lowest orbitals, and what
    field operators do to them. *)
From Coq Require Import List NArith Arith Bool Lia Sorting.Permutation.
From Verif Require Import Base Star FockSpec FockFacts FockOps.
Import ListNotations.
Local Open Scope nat_scope.

(** the lowest [m] bits, and the others *)
Definition lo (m : nat) (d : N) : N := N.modulo d (2 ^ N.of_nat m).
Definition hi (m : nat) (d : N) : N := N.shiftr d (N.of_nat m).
Lemma bt_lo m d q : bt (lo m d) q = (q <? m) && bt d q.
Proof.
  unfold bt, lo. destruct (Nat.ltb_spec q m).
  - rewrite N.mod_pow2_bits_low by lia. reflexivity.
  - rewrite N.mod_pow2_bits_high by lia. reflexivity.
Qed.
Lemma bt_hi m d q : bt (hi m d) q = bt d (m + q).
Proof. unfold bt, hi. rewrite N.shiftr_spec by lia. f_equal. lia. Qed.
Lemma lo_lt m d : (lo m d < 2 ^ N.of_nat m)%N.
Proof. apply lt_pow. intros q Hq. rewrite bt_lo. destruct (Nat.ltb_spec q m); [lia|reflexivity]. Qed.
Lemma hi_lt m M d : (d < 2 ^ N.of_nat (m + M))%N -> (hi m d < 2 ^ N.of_nat M)%N.
Proof. intros H. apply lt_pow. intros q Hq. rewrite bt_hi. apply (bt_high d (m + M)); [exact H|lia]. Qed.
Ltac bits := intros; apply bt_ext; intros ?q; rewrite ?bt_lo, ?bt_hi, ?bt_sb, ?bt_cb, ?bt_lo, ?bt_hi;
  repeat match goal with |- context [(?a <? ?b)] => destruct (Nat.ltb_spec a b) | |- context [(?a =? ?b)] => destruct (Nat.eqb_spec a b) end; subst; try lia; cbn [negb andb orb]; try reflexivity; rewrite ?andb_false_r; auto.
Lemma lo_sb m d p : p < m -> lo m (sb d p) = sb (lo m d) p. Proof. bits. Qed.
Lemma hi_sb m d p : p < m -> hi m (sb d p) = hi m d. Proof. bits. Qed.
Lemma lo_cb m d p : p < m -> lo m (cb d p) = cb (lo m d) p. Proof. bits. Qed.
Lemma hi_cb m d p : p < m -> hi m (cb d p) = hi m d. Proof. bits. Qed.
Lemma lo_sb' m d p : lo m (sb d (m + p)) = lo m d. Proof. bits. Qed.
Lemma hi_sb' m d p : hi m (sb d (m + p)) = sb (hi m d) p. Proof. bits. Qed.
Lemma lo_cb' m d p : lo m (cb d (m + p)) = lo m d. Proof. bits. Qed.
Lemma hi_cb' m d p : hi m (cb d (m + p)) = cb (hi m d) p. Proof. bits. Qed.

Lemma parity_app {A} (f : A -> bool) l l' : parity f (l ++ l') = xorb (parity f l) (parity f l').
Proof. induction l as [|x l IH]; [cbn [app]; change (parity f []) with false; now destruct (parity f l')|]. cbn [app]. rewrite !parity_cons, IH. now rewrite xorb_assoc. Qed.
Lemma parity_map {A B} (f : B -> bool) (g : A -> B) l : parity f (map g l) = parity (fun x => f (g x)) l.
Proof. induction l as [|x l IH]; [reflexivity|]. cbn [map]. now rewrite !parity_cons, IH. Qed.
Lemma seq_off k n : seq k n = map (Nat.add k) (seq 0 n).
Proof. revert k. induction n as [|n IH]; intros k; [reflexivity|]. cbn [seq map]. f_equal; [lia|]. rewrite (IH (S k)), (IH 1), map_map. apply map_ext. intros; lia. Qed.
Lemma above_lo m M d p : p < m -> above (m + M) d p = xorb (above m (lo m d) p) (parity (bt (hi m d)) (seq 0 M)).
Proof.
  intros Hp. unfold above. replace (m + M - S p) with ((m - S p) + M) by lia. rewrite seq_app, parity_app. f_equal.
  - apply parity_ext. intros q Hq. apply in_seq in Hq. rewrite bt_lo. destruct (Nat.ltb_spec q m); [reflexivity|lia].
  - replace (S p + (m - S p)) with m by lia. rewrite (seq_off m), parity_map. apply parity_ext. intros q _. now rewrite bt_hi.
Qed.
Lemma above_hi m M d p : above (m + M) d (m + p) = above M (hi m d) p.
Proof.
  unfold above. replace (m + M - S (m + p)) with (M - S p) by lia. rewrite (seq_off (S (m + p))), (seq_off (S p)), !parity_map.
  apply parity_ext. intros q _. rewrite bt_hi. f_equal. lia.
Qed.

Definition xors (l : list bool) : bool := fold_right xorb false l.

Section Prod.
Variable K : star_ring.
Add Ring Kr : (sring K).
Local Open Scope star_scope.
Notation vec := (vec K).
Notation sg := (sg K).
Notation inner := (inner K).
Notation cre := (cre K).
Notation ann := (ann K).

Definition fld (k : bool) (m p : nat) (v : vec) : vec := if k then cre m p v else ann m p v.
Fixpoint prodv (vs : list (nat * vec)) (d : N) : K :=
  match vs with [] => s1 | (m, v) :: r => v (lo m d) * prodv r (hi m d) end.
Definition tot (vs : list (nat * vec)) : nat := list_sum (map fst vs).
Definition off (vs : list (nat * vec)) (f : nat) : nat := list_sum (map fst (firstn f vs)).
(** the number of electrons is odd (or not) in all determinants *)
Definition pdef (m : nat) (b : bool) (v : vec) : Prop := forall d, (d < 2 ^ N.of_nat m)%N -> v d = s0 \/ parity (bt d) (seq 0 m) = b.
Definition pdefs (vs : list (nat * vec)) (bs : list bool) : Prop := Forall2 (fun x b => pdef (fst x) b (snd x)) vs bs.

Lemma tot_cons m v vs : tot ((m, v) :: vs) = (m + tot vs)%nat. Proof. reflexivity. Qed.
Lemma parity_lohi m M d : parity (bt d) (seq 0 (m + M)) = xorb (parity (bt (lo m d)) (seq 0 m)) (parity (bt (hi m d)) (seq 0 M)).
Proof.
  rewrite seq_app, parity_app. f_equal.
  - apply parity_ext. intros q Hq. apply in_seq in Hq. rewrite bt_lo. destruct (Nat.ltb_spec q m); [reflexivity|lia].
  - cbn [Nat.add]. rewrite (seq_off m), parity_map. apply parity_ext. intros q _. now rewrite bt_hi.
Qed.
Lemma pdefs_prod vs bs : pdefs vs bs -> pdef (tot vs) (xors bs) (prodv vs).
Proof.
  induction 1 as [|[m v] b vs bs P F IH]; intros d Hd; [right; reflexivity|]. cbn [prodv xors fold_right]. rewrite tot_cons in *. fold (xors bs).
  cbn [fst snd] in P. destruct (P (lo m d) (lo_lt m d)) as [E|E]; [left; rewrite E; ring|].
  destruct (IH (hi m d) (hi_lt m _ d Hd)) as [E'|E']; [left; rewrite E'; ring|]. right. rewrite parity_lohi, E, E'. reflexivity.
Qed.
Lemma fld_pdef k m b p v : (p < m)%nat -> pdef m b v -> pdef m (negb b) (fld k m p v).
Proof.
  intros Hp P d Hd. assert (F : forall e, (forall r, bt e r = xorb (p =? r)%nat (bt d r)) -> parity (bt e) (seq 0 m) = negb (parity (bt d) (seq 0 m))).
  { intros e He. rewrite (parity_ext (bt e) (fun r => xorb (p =? r)%nat (bt d r))) by (intros; apply He). rewrite parity_xor, parity_eqb by apply seq_NoDup.
    destruct (in_dec Nat.eq_dec p (seq 0 m)) as [I|I]; [reflexivity|]. exfalso. apply I, in_seq. lia. }
  unfold fld. destruct k; unfold FockSpec.cre, FockSpec.ann; destruct (bt d p) eqn:B; auto.
  - destruct (P (cb d p) (cb_lt d m p Hd)) as [E|E]; [left; rewrite E; apply sg_0|]. right. rewrite <- E. apply eq_sym. rewrite F, negb_involutive; [reflexivity|].
    intros r. rewrite bt_cb. destruct (Nat.eqb_spec p r) as [<-|]; [now rewrite B|]. now destruct (bt d r).
  - destruct (P (sb d p) (sb_lt d m p Hd Hp)) as [E|E]; [left; rewrite E; apply sg_0|]. right. rewrite <- E. apply eq_sym. rewrite F, negb_involutive; [reflexivity|].
    intros r. rewrite bt_sb. destruct (Nat.eqb_spec p r) as [<-|]; [now rewrite B|]. now destruct (bt d r).
Qed.

(** one operator acts on its fragment; it changes sign if the number of electrons in the fragments above is odd *)
Definition act (f : nat) (k : bool) (p : nat) (vs : list (nat * vec)) : list (nat * vec) := upd f (fun x => (fst x, fld k (fst x) p (snd x))) vs.
Lemma fld_prod k p vs bs : pdefs vs bs -> forall f m v, nth_error vs f = Some (m, v) -> (p < m)%nat -> forall d, (d < 2 ^ N.of_nat (tot vs))%N ->
  fld k (tot vs) (off vs f + p) (prodv vs) d = sg (xors (skipn (S f) bs)) (prodv (act f k p vs) d).
Proof.
  induction 1 as [|[m v] b vs bs P F IH]; intros f m' v' E Hp d Hd; [destruct f; discriminate|]. rewrite tot_cons in *. cbn [fst snd] in P.
  destruct f as [|f].
  - cbn in E. injection E as <- <-. cbn [off firstn map list_sum fold_right Nat.add skipn act upd prodv fst snd].
    pose proof (pdefs_prod vs bs F (hi m d) (hi_lt m _ d Hd)) as Q. unfold fld. destruct k; unfold FockSpec.cre, FockSpec.ann; cbn [prodv]; rewrite above_lo, bt_lo, ?hi_cb, ?lo_cb, ?hi_sb, ?lo_sb by assumption;
      destruct (Nat.ltb_spec p m); try lia; cbn [andb]; destruct (bt d p); rewrite ?sg_0; try (destruct (xors _); cbn; ring).
    + destruct Q as [-> | ->]; [|].
      * rewrite <- ?mul_sg. destruct (xorb _ _), (xors bs); cbn; ring.
      * rewrite sg_mul, sg_sg. f_equal. apply xorb_comm.
    + destruct Q as [-> | ->].
      * destruct (xorb _ _), (xors bs); cbn; ring.
      * rewrite sg_mul, sg_sg. f_equal. apply xorb_comm.
  - cbn [nth_error] in E. change (skipn (S (S f)) (b :: bs)) with (skipn (S f) bs). specialize (IH f m' v' E Hp (hi m d) (hi_lt m _ d Hd)).
    replace (off ((m, v) :: vs) (S f)) with (m + off vs f)%nat by reflexivity. unfold act. cbn [upd prodv]. fold (act f k p vs).
    rewrite <- mul_sg, <- IH, <- Nat.add_assoc. unfold fld. destruct k; unfold FockSpec.cre, FockSpec.ann; cbn [prodv]; rewrite above_hi, bt_hi, ?lo_cb', ?hi_cb', ?lo_sb', ?hi_sb'; destruct (bt d _); try ring; now rewrite mul_sg.
Qed.
Lemma act_pdefs f k p vs bs : pdefs vs bs -> (forall m v, nth_error vs f = Some (m, v) -> (p < m)%nat) -> pdefs (act f k p vs) (upd f negb bs).
Proof.
  intros F. revert f. induction F as [|[m v] b vs bs P F IH]; intros f H; [destruct f; constructor|]. destruct f as [|f]; cbn.
  - constructor; [|exact F]. cbn [fst snd] in *. apply fld_pdef; [|exact P]. now apply (H m v).
  - constructor; [exact P|]. apply IH. exact H.
Qed.
Lemma act_tot f k p vs : tot (act f k p vs) = tot vs.
Proof. unfold tot, act. f_equal. revert f. induction vs as [|[m v] vs IH]; intros [|f]; try reflexivity. cbn. f_equal. apply IH. Qed.
Lemma act_off f k p vs g : off (act f k p vs) g = off vs g.
Proof. unfold off, act. revert f g. induction vs as [|[m v] vs IH]; intros [|f] [|g]; try reflexivity. cbn. f_equal. apply IH. Qed.
Lemma act_nth f k p vs g : nth_error (act f k p vs) g = option_map (fun x => if (f =? g)%nat then (fst x, fld k (fst x) p (snd x)) else x) (nth_error vs g).
Proof. unfold act. revert f g. induction vs as [|[m v] vs IH]; intros [|f] [|g]; try reflexivity; cbn; [now destruct (nth_error vs g)|apply IH]. Qed.

(** strings of operators (kind, fragment, orbital), leftmost first *)
Definition fop : Type := bool * nat * nat.
Definition fr (x : fop) : nat := snd (fst x).
Definition acts (ops : list fop) (vs : list (nat * vec)) : list (nat * vec) := fold_right (fun x vs => act (fr x) (fst (fst x)) (snd x) vs) vs ops.
Definition string (vs : list (nat * vec)) (ops : list fop) (w : vec) : vec :=
  fold_right (fun x w => fld (fst (fst x)) (tot vs) (off vs (fr x) + snd x) w) w ops.
Definition flips (ops : list fop) (bs : list bool) : list bool := fold_right (fun x bs => upd (fr x) negb bs) bs ops.
Fixpoint osign (ops : list fop) (bs : list bool) : bool :=
  match ops with [] => false | x :: r => xorb (osign r bs) (xors (skipn (S (fr x)) (flips r bs))) end.
Definition fits (vs : list (nat * vec)) (x : fop) : Prop := exists m v, nth_error vs (fr x) = Some (m, v) /\ (snd x < m)%nat.
Lemma off_tot vs : forall f m v p, nth_error vs f = Some (m, v) -> (p < m)%nat -> (off vs f + p < tot vs)%nat.
Proof.
  induction vs as [|[m' v'] vs IH]; intros [|f] m v p E Hp; try discriminate.
  - cbn in E. injection E as -> ->. rewrite tot_cons. cbn. lia.
  - cbn in E. rewrite tot_cons. replace (off ((m', v') :: vs) (S f)) with (m' + off vs f)%nat by reflexivity. specialize (IH f m v p E Hp). lia.
Qed.
Lemma fld_ext k m p (u v : vec) : (p < m)%nat -> veq K m u v -> veq K m (fld k m p u) (fld k m p v).
Proof. intros Hp E d Hd. unfold fld. destruct k; unfold FockSpec.cre, FockSpec.ann; rewrite E; auto using cb_lt, sb_lt. Qed.
Lemma fld_sg k m p b (v : vec) d : fld k m p (fun e => sg b (v e)) d = sg b (fld k m p v d).
Proof. unfold fld. destruct k; unfold FockSpec.cre, FockSpec.ann; destruct (bt d p); rewrite ?sg_0, ?sg_sg; try reflexivity; f_equal; apply xorb_comm. Qed.
Lemma acts_shape ops vs : tot (acts ops vs) = tot vs /\ (forall f, off (acts ops vs) f = off vs f) /\ (forall x, fits vs x -> fits (acts ops vs) x).
Proof.
  induction ops as [|y ops (IH1 & IH2 & IH3)]; [auto|]. change (acts (y :: ops) vs) with (act (fr y) (fst (fst y)) (snd y) (acts ops vs)). rewrite act_tot, IH1. split; [reflexivity|]. split; [intros f; now rewrite act_off|].
  intros x Hx. destruct (IH3 x Hx) as (m & v & E & L). unfold fits. rewrite act_nth, E. cbn. destruct (fr y =? fr x)%nat; eauto.
Qed.
Lemma acts_pdefs ops vs bs : pdefs vs bs -> Forall (fits vs) ops -> pdefs (acts ops vs) (flips ops bs).
Proof.
  intros P. induction 1 as [|x ops Hx Ho IH]; [exact P|]. change (acts (x :: ops) vs) with (act (fr x) (fst (fst x)) (snd x) (acts ops vs)).
  change (flips (x :: ops) bs) with (upd (fr x) negb (flips ops bs)). apply act_pdefs; [exact IH|]. intros m v E.
  destruct (acts_shape ops vs) as (_ & _ & S). destruct (S x Hx) as (m' & v' & E' & L). rewrite E in E'. injection E' as <- <-. exact L.
Qed.
Theorem string_prod ops vs bs : pdefs vs bs -> Forall (fits vs) ops -> veq K (tot vs) (string vs ops (prodv vs)) (fun d => sg (osign ops bs) (prodv (acts ops vs) d)).
Proof.
  intros P. induction 1 as [|x ops Hx Ho IH]; [intros d _; reflexivity|]. cbn [string acts osign fold_right]. fold (acts ops vs). fold (string vs ops (prodv vs)).
  pose proof (acts_pdefs ops vs bs P Ho) as Pa. destruct (acts_shape ops vs) as (S1 & S2 & S3). destruct Hx as (m & v & E & L). intros d Hd.
  rewrite (fld_ext _ _ _ _ _ (off_tot vs _ m v _ E L) IH d Hd). rewrite fld_sg. destruct (S3 x (ex_intro _ m (ex_intro _ v (conj E L)))) as (m' & v' & E' & L').
  rewrite <- S1 in *. rewrite <- (S2 (fr x)). rewrite (fld_prod _ _ _ _ Pa _ m' v' E' L' d Hd), sg_sg. reflexivity.
Qed.

(** ** inner products *)
Lemma seq_mul a b : seq 0 (a * b) = flat_map (fun h => map (fun l => h * a + l)%nat (seq 0 a)) (seq 0 b).
Proof.
  induction b as [|b IH]; [now rewrite Nat.mul_0_r|]. rewrite seq_S, flat_map_app, <- IH. cbn [Nat.add flat_map]. rewrite app_nil_r.
  replace (a * S b)%nat with (a * b + a)%nat by lia. rewrite seq_app. f_equal. rewrite (seq_off (0 + a * b)). apply map_ext. intros; lia.
Qed.
Lemma lohi m l h : (l < 2 ^ m)%nat -> lo m (N.of_nat (h * 2 ^ m + l)) = N.of_nat l /\ hi m (N.of_nat (h * 2 ^ m + l)) = N.of_nat h.
Proof.
  intros H. assert (E : N.of_nat (h * 2 ^ m + l) = (N.of_nat h * 2 ^ N.of_nat m + N.of_nat l)%N) by (rewrite Nnat.Nat2N.inj_add, Nnat.Nat2N.inj_mul, Nnat.Nat2N.inj_pow; reflexivity).
  assert (L : (N.of_nat l < 2 ^ N.of_nat m)%N) by (change 2%N with (N.of_nat 2); rewrite <- Nnat.Nat2N.inj_pow; lia).
  assert (Z : (2 ^ N.of_nat m <> 0)%N) by (apply N.pow_nonzero; discriminate). unfold lo, hi. rewrite E. split.
  - rewrite N.add_comm, N.mod_add by exact Z. now apply N.mod_small.
  - rewrite N.shiftr_div_pow2. rewrite N.add_comm, N.div_add by exact Z. rewrite N.div_small by exact L. lia.
Qed.
Lemma inner_prod_cons m M (u v : vec) (us vs : vec) :
  inner (m + M) (fun d => u (lo m d) * us (hi m d)) (fun d => v (lo m d) * vs (hi m d)) = inner m u v * inner M us vs.
Proof.
  unfold FockSpec.inner, dets. rewrite Nat.pow_add_r, seq_mul, !bsum_map, bsum_flat_map.
  rewrite bsum_mul_l. apply bsum_ext. intros h Hh. rewrite bsum_map. rewrite bsum_mul_r. apply bsum_ext. intros l Hl. apply in_seq in Hl.
  destruct (lohi m l h) as [-> ->]; [lia|]. rewrite sconj_mul. ring.
Qed.
Lemma conj_one : sconj s1 = @s1 K.
Proof. transitivity (sconj s1 * sconj (@sconj K s1)); [rewrite sconj_inv; ring|]. rewrite <- sconj_mul. replace (s1 * sconj s1) with (@sconj K s1) by ring. apply sconj_inv. Qed.
Definition inners (us vs : list (nat * vec)) : K := fold_right smul s1 (map (fun x => inner (fst (fst x)) (snd (fst x)) (snd (snd x))) (combine us vs)).
Theorem inner_prod us : forall vs, map fst us = map fst vs -> inner (tot us) (prodv us) (prodv vs) = inners us vs.
Proof.
  induction us as [|[m u] us IH]; intros [|[m' v] vs] E; try discriminate.
  - cbn. unfold FockSpec.inner, dets. cbn. rewrite conj_one. ring.
  - cbn in E. injection E as <- E. rewrite tot_cons. unfold inners. cbn [combine map fold_right fst snd]. fold (inners us vs). rewrite <- IH by exact E. apply inner_prod_cons.
Qed.
End Prod.
