(** Products of fragment states in the Fock space of all orbitals. *)
From Coq Require Import List NArith Arith Bool Lia Sorting.Permutation.
From Verif Require Import Base Star FockSpec FockFacts FockOps ProdFock PermFock LprodSpec SignsModel.
Import ListNotations.
Local Open Scope nat_scope.

Lemma nodup_app {A} (l m : list A) : NoDup l -> NoDup m -> (forall x, In x l -> In x m -> False) -> NoDup (l ++ m).
Proof.
  induction 1 as [|x l Hx Hn IH]; intros N D; [exact N|]. cbn. constructor.
  - intros I. apply in_app_or in I as [I|I]; [contradiction|]. apply (D x); [now left|exact I].
  - apply IH; [exact N|]. intros y Hy. apply D. now right.
Qed.
Lemma offn_S n f : offn n (S f) = offn n f + n f.
Proof. unfold offn. rewrite seq_S, map_app, list_sum_app. cbn. lia. Qed.
Lemma offn_mono n f g : f <= g -> offn n f <= offn n g.
Proof. induction 1; [lia|]. rewrite offn_S. lia. Qed.
Lemma offn_lt n f g : f < g -> offn n f + n f <= offn n g.
Proof. intros H. rewrite <- offn_S. apply offn_mono. lia. Qed.

Lemma sum_twice (n : nat -> nat) l : list_sum (map (fun g => 2 * n g) l) = 2 * list_sum (map n l).
Proof. induction l as [|x l IH]; [reflexivity|]. cbn [map]. change (list_sum (?a :: ?b)) with (a + list_sum b). lia. Qed.
Section LF.
Variables (nf : nat) (n : nat -> nat).
Notation off' := (offn n).
Notation NO := (norb nf n).
Definition label : Type := nat * bool * nat.
Definition label_dec (x y : label) : {x = y} + {x <> y}.
Proof. repeat decide equality. Defined.
Definition labs : list label := flat_map (fun f => flat_map (fun dn => map (fun l => (f, dn, l)) (seq 0 (n f))) [true; false]) (seq 0 nf).
Definition la (x : label) : nat := let '(f, dn, l) := x in 2 * off' f + lorb n f dn l.
Definition lb (x : label) : nat := let '(f, dn, l) := x in gorb nf n f dn l.
Lemma in_labs f dn l : In (f, dn, l) labs <-> f < nf /\ l < n f.
Proof.
  unfold labs. rewrite in_flat_map. split.
  - intros (g & Hg & H). apply in_seq in Hg. apply in_flat_map in H as (dn' & _ & H). apply in_map_iff in H as (l' & E & H). injection E as -> -> ->. apply in_seq in H. lia.
  - intros [Hf Hl]. exists f. split; [apply in_seq; lia|]. apply in_flat_map. exists dn. split; [destruct dn; cbn; auto|]. apply in_map, in_seq. lia.
Qed.
Lemma off_NO f l : f < nf -> l < n f -> off' f + l < NO.
Proof. intros Hf Hl. pose proof (offn_lt n f nf Hf). unfold norb. lia. Qed.
Lemma length_labs : length labs = 2 * NO.
Proof.
  assert (G : forall k, length (flat_map (fun f => flat_map (fun dn => map (fun l => (f, dn, l)) (seq 0 (n f))) [true; false]) (seq 0 k)) = 2 * off' k); [|apply G].
  induction k as [|k IH]; [reflexivity|]. rewrite seq_S, flat_map_app, app_length, IH, offn_S. cbn [flat_map Nat.add]. rewrite !app_nil_r, app_length, !map_length, seq_length. lia.
Qed.
Lemma NoDup_labs : NoDup labs.
Proof.
  unfold labs. induction nf as [|k IH]; [constructor|]. rewrite seq_S, flat_map_app. cbn [flat_map Nat.add]. rewrite !app_nil_r.
  assert (N2 : NoDup (map (fun l => (k, true, l)) (seq 0 (n k)) ++ map (fun l => (k, false, l)) (seq 0 (n k)))).
  { apply nodup_app; [apply FinFun.Injective_map_NoDup; [intros x y E; now injection E|apply seq_NoDup] | apply FinFun.Injective_map_NoDup; [intros x y E; now injection E|apply seq_NoDup] |].
    intros x Hx Hy. apply in_map_iff in Hx as (l & <- & _). apply in_map_iff in Hy as (l' & E & _). discriminate. }
  apply nodup_app; [exact IH|exact N2|]. intros x Hx Hy. apply in_flat_map in Hx as (g & Hg & Hx). apply in_seq in Hg. rewrite app_nil_r in Hx.
  apply in_app_or in Hx as [Hx|Hx]; apply in_map_iff in Hx as (l & <- & _); apply in_app_or in Hy as [Hy|Hy]; apply in_map_iff in Hy as (l' & E & _); injection E; lia.
Qed.
Lemma frag_order f g l l' : l < n f -> l' < n g -> off' f + l = off' g + l' -> f = g /\ l = l'.
Proof.
  intros Hl Hl' E. destruct (lt_eq_lt_dec f g) as [[H|<-]|H]; [|split; [reflexivity|lia]|].
  - pose proof (offn_lt n f g H). lia.
  - pose proof (offn_lt n g f H). lia.
Qed.
Lemma la_range x : In x labs -> la x < 2 * NO.
Proof. destruct x as [[f dn] l]. intros H. apply in_labs in H as [Hf Hl]. pose proof (offn_lt n f nf Hf). unfold la, lorb, norb. destruct dn; lia. Qed.
Lemma lb_range x : In x labs -> lb x < 2 * NO.
Proof. destruct x as [[f dn] l]. intros H. apply in_labs in H as [Hf Hl]. pose proof (offn_lt n f nf Hf). unfold lb, gorb, norb. destruct dn; lia. Qed.
Lemma la_inj x y : In x labs -> In y labs -> la x = la y -> x = y.
Proof.
  destruct x as [[f dn] l], y as [[g dn'] l']. intros Hx Hy E. apply in_labs in Hx as [Hf Hl], Hy as [Hg Hl']. unfold la, lorb in E.
  destruct (lt_eq_lt_dec f g) as [[H|<-]|H].
  - pose proof (offn_lt n f g H). destruct dn, dn'; lia.
  - destruct dn, dn'; try lia; f_equal; lia.
  - pose proof (offn_lt n g f H). destruct dn, dn'; lia.
Qed.
Lemma lb_inj x y : In x labs -> In y labs -> lb x = lb y -> x = y.
Proof.
  destruct x as [[f dn] l], y as [[g dn'] l']. intros Hx Hy E. apply in_labs in Hx as [Hf Hl], Hy as [Hg Hl']. unfold lb, gorb in E.
  pose proof (off_NO f l Hf Hl). pose proof (off_NO g l' Hg Hl').
  destruct dn, dn'; try lia; destruct (frag_order f g l l' Hl Hl') as [-> ->]; try reflexivity; lia.
Qed.
Lemma perm_of (c : label -> nat) : (forall x, In x labs -> c x < 2 * NO) -> (forall x y, In x labs -> In y labs -> c x = c y -> x = y) -> Permutation (map c labs) (seq 0 (2 * NO)).
Proof.
  intros R J. apply NoDup_Permutation_bis.
  - apply map_nodup_in; [exact NoDup_labs|exact J].
  - rewrite map_length, length_labs, seq_length. lia.
  - intros q Hq. apply in_map_iff in Hq as (x & <- & Hx). apply in_seq. specialize (R x Hx). lia.
Qed.
Lemma P_la : Permutation (map la labs) (seq 0 (2 * NO)). Proof. apply perm_of; [exact la_range|exact la_inj]. Qed.
Lemma P_lb : Permutation (map lb labs) (seq 0 (2 * NO)). Proof. apply perm_of; [exact lb_range|exact lb_inj]. Qed.
(** only a spin-up orbital of a lower and a spin-down orbital of a higher fragment change order *)
Lemma inverted_eq f dn l g dn' l' : In (f, dn, l) labs -> In (g, dn', l') labs -> inverted label la lb (f, dn, l) (g, dn', l') = (f <? g) && negb dn && dn'.
Proof.
  intros Hx Hy. apply in_labs in Hx as [Hf Hl], Hy as [Hg Hl']. unfold inverted, la, lb, lorb, gorb.
  pose proof (off_NO f l Hf Hl). pose proof (off_NO g l' Hg Hl').
  destruct (lt_eq_lt_dec f g) as [[H1|<-]|H1]; [pose proof (offn_lt n f g H1)| |pose proof (offn_lt n g f H1)];
  destruct dn, dn'; cbn [negb andb]; repeat match goal with |- context [(?a <? ?b)] => destruct (Nat.ltb_spec a b) end; cbn [andb]; try reflexivity; lia.
Qed.

Definition occ (d : N) (f : nat) (dn : bool) : bool := parity (fun l => bt d (gorb nf n f dn l)) (seq 0 (n f)).
Lemma parity_labs (g : label -> bool) : parity g labs = parity (fun f => xorb (parity (fun l => g (f, true, l)) (seq 0 (n f))) (parity (fun l => g (f, false, l)) (seq 0 (n f)))) (seq 0 nf).
Proof. unfold labs. rewrite parity_flat_map. apply parity_ext. intros f _. cbn [flat_map]. rewrite app_nil_r, parity_app, !parity_map. reflexivity. Qed.
Lemma inv_eq d : inv label labs la lb d = parity (fun f => occ d f false && parity (fun g => (f <? g) && occ d g true) (seq 0 nf)) (seq 0 nf).
Proof.
  unfold inv. rewrite parity_labs. apply parity_ext. intros f Hf. apply in_seq in Hf.
  assert (E : forall dn l, l < n f -> parity (fun y => inverted label la lb (f, dn, l) y && bt d (lb y)) labs = negb dn && parity (fun g => (f <? g) && occ d g true) (seq 0 nf)).
  { intros dn l Hl. rewrite parity_labs, <- parity_and. apply parity_ext. intros g Hg. apply in_seq in Hg. unfold occ. rewrite <- !parity_and, <- parity_xor.
    apply parity_ext. intros l' Hl'. apply in_seq in Hl'. rewrite !inverted_eq by (apply in_labs; lia). cbn [lb]. destruct dn, (f <? g), (bt d (gorb nf n g true l')), (bt d (gorb nf n g false l')); reflexivity. }
  rewrite (parity_false _ (seq 0 (n f))); [rewrite xorb_false_l|].
  - unfold occ at 1. rewrite andb_comm, <- parity_and. apply parity_ext. intros l Hl. apply in_seq in Hl. rewrite E by lia. cbn [negb andb lb]. apply andb_comm.
  - intros l Hl. apply in_seq in Hl. rewrite E by lia. cbn. apply andb_false_r.
Qed.

Lemma bt_frag_det f d dn l : f < nf -> l < n f -> bt (frag_det nf n f d) (lorb n f dn l) = bt d (gorb nf n f dn l).
Proof.
  intros Hf Hl. unfold frag_det. unfold bt at 1. rewrite N.lor_spec.
  change (N.modulo ?x (2 ^ N.of_nat ?k)) with (lo k x). change (N.testbit ?x (N.of_nat ?q)) with (bt x q) at 1. rewrite bt_lo. change (N.shiftr d (N.of_nat ?k)) with (hi k d). rewrite bt_hi.
  unfold lorb, gorb. destruct dn.
  - rewrite N.shiftl_spec_low by lia. rewrite orb_false_r. destruct (Nat.ltb_spec (0 + l) (n f)); [|lia]. cbn [andb]. f_equal; lia.
  - destruct (Nat.ltb_spec (n f + l) (n f)); [lia|]. cbn [andb orb]. rewrite N.shiftl_spec_high by lia. replace (N.of_nat (n f + l) - N.of_nat (n f))%N with (N.of_nat l) by lia.
    change (N.testbit ?x (N.of_nat ?q)) with (bt x q). rewrite bt_lo, bt_hi. destruct (Nat.ltb_spec l (n f)); [|lia]. cbn [andb]. f_equal; lia.
Qed.
Lemma frag_det_lt f d : (frag_det nf n f d < 2 ^ N.of_nat (2 * n f))%N.
Proof.
  apply lt_pow. intros q Hq. unfold frag_det, bt. rewrite N.lor_spec. rewrite N.shiftl_spec_high by lia. rewrite !N.mod_pow2_bits_high by lia. reflexivity.
Qed.
(** fragment f of the renumbered determinant *)
Lemma conv_frag f d : f < nf -> lo (2 * n f) (hi (2 * off' f) (conv label labs la lb d)) = frag_det nf n f d.
Proof.
  intros Hf. apply bt_ext. intros q. rewrite bt_lo, bt_hi. destruct (Nat.ltb_spec q (2 * n f)) as [Hq|Hq].
  - cbn [andb]. destruct (le_lt_dec (n f) q) as [H|H].
    + replace q with (lorb n f false (q - n f)) by (unfold lorb; lia). rewrite bt_frag_det by lia. change (2 * off' f + lorb n f false (q - n f)) with (la (f, false, q - n f)).
      rewrite (bt_conv label labs la lb _ P_la) by (apply in_labs; lia). reflexivity.
    + replace q with (lorb n f true q) by reflexivity. rewrite bt_frag_det by lia. change (2 * off' f + lorb n f true q) with (la (f, true, q)).
      rewrite (bt_conv label labs la lb _ P_la) by (apply in_labs; lia). reflexivity.
  - cbn [andb]. symmetry. apply (bt_high _ (2 * n f)); [apply frag_det_lt|exact Hq].
Qed.

Variable K : star_ring.
Add Ring Kr : (sring K).
Local Open Scope star_scope.
Definition frags (v : nat -> vec K) : list (nat * vec K) := map (fun f => (2 * n f, v f)%nat) (seq 0 nf).
Lemma tot_frags v : tot K (frags v) = (2 * NO)%nat.
Proof. unfold tot, frags, norb, offn. rewrite map_map. apply sum_twice. Qed.
Lemma off_frags v f : (f <= nf)%nat -> off K (frags v) f = (2 * off' f)%nat.
Proof.
  intros Hf. unfold off, frags, offn. rewrite firstn_map, map_map. cbn [fst]. replace (firstn f (seq 0 nf)) with (seq 0 f).
  - apply sum_twice.
  - replace nf with (f + (nf - f))%nat by lia. rewrite seq_app, firstn_app, seq_length, Nat.sub_diag. cbn. rewrite app_nil_r. symmetry. apply firstn_all2. now rewrite seq_length.
Qed.
Lemma prodv_bprod k : forall (v : nat -> vec K) s d, prodv K (map (fun f => (2 * n f, v f)%nat) (seq s k)) d =
  bprod K (seq s k) (fun f => v f (lo (2 * n f) (hi (list_sum (map (fun g => 2 * n g)%nat (seq s (f - s)))) d))).
Proof.
  induction k as [|k IH]; intros v s d; [reflexivity|]. cbn [seq map prodv bprod fold_right]. rewrite Nat.sub_diag. cbn [seq map list_sum fold_right]. apply (f_equal2 smul); [do 2 f_equal; unfold hi; symmetry; apply N.shiftr_0_r|].
  rewrite IH. fold (bprod K (seq (S s) k) (fun f => v f (lo (2 * n f) (hi (list_sum (map (fun g => 2 * n g)%nat (seq s (f - s)))) d)))).
  unfold bprod. assert (forall l : list nat, (forall f, In f l -> (S s <= f)%nat) -> fold_right (fun x r => v x (lo (2 * n x) (hi (list_sum (map (fun g => 2 * n g)%nat (seq (S s) (x - S s)))) (hi (2 * n s) d))) * r) s1 l
    = fold_right (fun x r => v x (lo (2 * n x) (hi (list_sum (map (fun g => 2 * n g)%nat (seq s (x - s)))) d)) * r) s1 l) as G; [|apply G; intros f Hf; apply in_seq in Hf; lia].
  induction l as [|x l IHl]; intros H; [reflexivity|]. cbn [fold_right]. apply (f_equal2 smul); [|apply IHl; intros f Hf; apply H; now right]. f_equal. f_equal. specialize (H x (or_introl eq_refl)).
  replace (x - s)%nat with (S (x - S s)) by lia. cbn [seq map]. change (list_sum (?p :: ?q)) with (p + list_sum q)%nat. unfold hi. rewrite N.shiftr_shiftr. f_equal. lia.
Qed.
Lemma bprod_ext l (f g : nat -> K) : (forall x, In x l -> f x = g x) -> bprod K l f = bprod K l g.
Proof. induction l as [|x l IH]; intros H; [reflexivity|]. cbn. rewrite H by now left. f_equal. apply IH. intros; apply H; now right. Qed.
Lemma bprod_0 l (f : nat -> K) x : In x l -> f x = s0 -> bprod K l f = s0.
Proof. induction l as [|y l IH]; intros I E; [destruct I|]. cbn. destruct I as [->|I]; [rewrite E; ring|]. fold (bprod K l f). rewrite IH by assumption. ring. Qed.
Lemma prodv_frags v d : prodv K (frags v) (conv label labs la lb d) = las_state K nf n v d.
Proof.
  unfold frags. rewrite prodv_bprod. unfold las_state. apply bprod_ext. intros f Hf. apply in_seq in Hf. f_equal. rewrite Nat.sub_0_r. rewrite <- conv_frag by lia. f_equal. f_equal.
  apply sum_twice.
Qed.

(** ** electrons *)
Lemma odd_count (p : nat -> bool) l : Nat.odd (count p l) = parity p l.
Proof. induction l as [|x l IH]; [reflexivity|]. rewrite parity_cons, <- IH. unfold count. cbn. destruct (p x); [|now destruct (Nat.odd _)]. cbn [length]. now rewrite Nat.odd_succ, <- Nat.negb_odd. Qed.
Lemma occ_frag d f dn : (f < nf)%nat -> occ d f dn = parity (bt (frag_det nf n f d)) (seq (if dn then 0 else n f) (n f)).
Proof.
  intros Hf. unfold occ. rewrite (seq_off (if dn then 0 else n f)), parity_map. apply parity_ext. intros l Hl. apply in_seq in Hl. rewrite <- bt_frag_det by lia. unfold lorb. now destruct dn.
Qed.
(** parity of the shuffle of the spins *)
Definition spar (ne : nat -> nat * nat) : bool := parity (fun f => Nat.odd (fst (ne f)) && parity (fun g => (f <? g)%nat && Nat.odd (snd (ne g))) (seq 0 nf)) (seq 0 nf).
Lemma all_or {P Q : nat -> Prop} k : (forall f, (f < k)%nat -> P f \/ Q f) -> (exists f, (f < k)%nat /\ P f) \/ (forall f, (f < k)%nat -> Q f).
Proof.
  induction k as [|k IH]; intros H; [right; intros f Hf; lia|]. destruct IH as [(f & Hf & I)|A]; [intros f Hf; apply H; lia| |].
  - left. exists f. split; [lia|exact I].
  - destruct (H k (Nat.lt_succ_diag_r k)) as [I|I]; [left; eauto|]. right. intros f Hf. destruct (Nat.eq_dec f k) as [->|]; [exact I|]. apply A. lia.
Qed.
Lemma las_renum v ne : (forall f, (f < nf)%nat -> has_nelec K (n f) (ne f) (v f)) ->
  forall d, las_state K nf n v d = sg K (spar ne) (renum label labs la lb K (prodv K (frags v)) d).
Proof.
  intros H d. unfold renum. rewrite prodv_frags, sg_sg.
  destruct (@all_or (fun f => v f (frag_det nf n f d) = s0) (fun f => count (bt (frag_det nf n f d)) (seq (n f) (n f)) = fst (ne f) /\ count (bt (frag_det nf n f d)) (seq 0 (n f)) = snd (ne f)) nf) as [(f & Hf & E)|A].
  - intros f Hf. apply (H f Hf), frag_det_lt.
  - replace (las_state K nf n v d) with (@s0 K); [now rewrite sg_0|]. symmetry. apply bprod_0 with f; [apply in_seq; lia|exact E].
  - replace (inv label labs la lb d) with (spar ne); [rewrite xorb_nilpotent; reflexivity|]. rewrite inv_eq. unfold spar. apply parity_ext. intros f Hf. apply in_seq in Hf.
    rewrite occ_frag by lia. cbv iota. destruct (A f) as [<- _]; [lia|]. rewrite odd_count. f_equal. apply parity_ext. intros g Hg. apply in_seq in Hg. rewrite occ_frag by lia. cbv iota. destruct (A g) as [_ <-]; [lia|]. now rewrite odd_count.
Qed.
Lemma frag_pdef f ne v : has_nelec K (n f) ne v -> pdef K (2 * n f) (Nat.odd (fst ne + snd ne)) v.
Proof.
  intros H d Hd. destruct (H d Hd) as [E|[E1 E2]]; [now left|right]. replace (2 * n f)%nat with (n f + n f)%nat by lia. rewrite seq_app, parity_app, <- !odd_count. cbn [Nat.add]. rewrite E2, E1.
  rewrite Nat.odd_add. apply xorb_comm.
Qed.

(** ** matrix elements *)
Definition okop (x : opr) : Prop := let '(k, (f, dn, l)) := x in (f < nf)%nat /\ (l < n f)%nat.
Definition tofop (x : opr) : fop := let '(k, (f, dn, l)) := x in (k, f, lorb n f dn l).
Lemma gops_ext ops (u w : vec K) : Forall okop ops -> veq K (2 * NO) u w -> veq K (2 * NO) (gops K nf n ops u) (gops K nf n ops w).
Proof.
  intros F E. induction F as [|[k [[f dn] l]] ops Ho F IH]; [exact E|]. cbn [gops fold_right]. apply (fld_ext K k); [|exact IH]. apply (lb_range (f, dn, l)), in_labs. exact Ho.
Qed.
Lemma gops_sg ops b (w : vec K) d : gops K nf n ops (fun e => sg K b (w e)) d = sg K b (gops K nf n ops w d).
Proof.
  revert d. induction ops as [|[k [[f dn] l]] ops IH]; intros d; [reflexivity|]. cbn [gops fold_right].
  change (fld K k (2 * NO) (gorb nf n f dn l) (gops K nf n ops (fun e => sg K b (w e))) d = sg K b (fld K k (2 * NO) (gorb nf n f dn l) (gops K nf n ops w) d)).
  rewrite <- fld_sg. unfold fld. destruct k; unfold cre, ann; now rewrite IH.
Qed.
Lemma gops_renum ops v w : Forall okop ops -> veq K (2 * NO) (gops K nf n ops (renum label labs la lb K w)) (renum label labs la lb K (string K (frags v) (map tofop ops) w)).
Proof.
  induction 1 as [|[k [[f dn] l]] ops Ho F IH]; [intros d _; reflexivity|]. intros d Hd. cbn [gops fold_right map string tofop fst snd fr].
  change (fld K k (2 * NO) (lb (f, dn, l)) (gops K nf n ops (renum label labs la lb K w)) d = renum label labs la lb K (fld K k (tot K (frags v)) (off K (frags v) f + lorb n f dn l) (string K (frags v) (map tofop ops) w)) d).
  destruct Ho as [Hf Hl]. rewrite tot_frags, off_frags by lia. change (2 * off' f + lorb n f dn l)%nat with (la (f, dn, l)). rewrite (renum_fld label label_dec labs la lb (2 * NO) P_la P_lb) by (auto; now apply in_labs).
  apply (fld_ext K k); [|exact IH|exact Hd]. apply lb_range, in_labs. auto.
Qed.
Theorem las_element u nu v nv ops : (forall f, (f < nf)%nat -> has_nelec K (n f) (nu f) (u f)) -> (forall f, (f < nf)%nat -> has_nelec K (n f) (nv f) (v f)) -> Forall okop ops ->
  inner K (2 * NO) (las_state K nf n u) (gops K nf n ops (las_state K nf n v)) =
  sg K (xorb (spar nu) (spar nv)) (inner K (2 * NO) (prodv K (frags u)) (string K (frags v) (map tofop ops) (prodv K (frags v)))).
Proof.
  intros Hu Hv Ho.
  transitivity (inner K (2 * NO) (fun d => sg K (spar nu) (renum label labs la lb K (prodv K (frags u)) d)) (fun d => sg K (spar nv) (renum label labs la lb K (string K (frags v) (map tofop ops) (prodv K (frags v))) d))).
  - apply inner_ext; [intros d _; now apply las_renum|]. intros d Hd.
    transitivity (gops K nf n ops (fun d => sg K (spar nv) (renum label labs la lb K (prodv K (frags v)) d)) d).
    + apply gops_ext; [exact Ho| |exact Hd]. intros e _. now apply las_renum.
    + rewrite gops_sg. f_equal. now apply gops_renum.
  - transitivity (sg K (xorb (spar nu) (spar nv)) (inner K (2 * NO) (renum label labs la lb K (prodv K (frags u))) (renum label labs la lb K (string K (frags v) (map tofop ops) (prodv K (frags v)))))).
    + unfold inner. transitivity (bsum (dets (2 * NO)) (fun d => sg K (xorb (spar nu) (spar nv)) s1 * (sconj (renum label labs la lb K (prodv K (frags u)) d) * renum label labs la lb K (string K (frags v) (map tofop ops) (prodv K (frags v))) d))).
      * apply bsum_ext. intros d _. rewrite sg_conj, sg_mul, mul_sg, sg_sg. rewrite sg_mul. apply (f_equal (sg K _)). ring.
      * rewrite <- bsum_mul_l, sg_mul. apply (f_equal (sg K _)). ring.
    + now rewrite (renum_inner label labs la lb (2 * NO) P_la P_lb).
Qed.
End LF.
