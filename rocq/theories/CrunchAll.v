(** From the cruncher functions to matrix elements between products of fragment states. *)
From Coq Require Import List NArith ZArith Arith Bool Btauto Lia Sorting.Permutation.
From Verif Require Import Base BaseFacts Star SCModel FockSpec FockFacts FockOps ProdFock PermFock LprodSpec LasFock LasElem SignsModel SignsFacts LasSigns ExcSpec CrunchModel CrunchSpec CrunchFacts CrunchRows.
Import ListNotations.
Local Open Scope nat_scope.

Section One.
Variables (K : star_ring) (nf : nat) (n : nat -> nat).
Add Ring Kr : (sring K).
Variables (V : nat -> nat -> nat -> vec K) (ne : nat -> nat -> nat * nat) (nl : nat -> nat -> nat).
Hypothesis Hne : forall f a i, f < nf -> i < nl f a -> has_nelec K (n f) (ne f a) (V f a i).
Notation lst := (nat * nat)%type.
Notation pb := (pb ne).
Definition sts (A : nat -> lst) (f : nat) : vec K := V f (fst (A f)) (snd (A f)).
Definition chg (A : nat -> lst) (f : nat) : nat * nat := ne f (fst (A f)).
Definition fits (A B : nat -> lst) (ops : list opr) (f : nat) : Prop :=
  Z.of_nat (fst (chg A f)) = (Z.of_nat (fst (chg B f)) + gain f false ops)%Z /\ Z.of_nat (snd (chg A f)) = (Z.of_nat (snd (chg B f)) + gain f true ops)%Z.
Lemma fits_dec A B ops l : (forall f, In f l -> fits A B ops f) \/ exists f, In f l /\ ~ fits A B ops f.
Proof.
  assert (D : forall f, {fits A B ops f} + {~ fits A B ops f}) by (intros f; unfold fits; destruct (Z.eq_dec (Z.of_nat (fst (chg A f))) (Z.of_nat (fst (chg B f)) + gain f false ops)), (Z.eq_dec (Z.of_nat (snd (chg A f))) (Z.of_nat (snd (chg B f)) + gain f true ops)); tauto).
  destruct (Forall_dec _ D l) as [F|F]; [left; now rewrite Forall_forall in F|right]. apply neg_Forall_Exists_neg in F; [|exact D]. now apply Exists_exists in F.
Qed.
Lemma odd_nat k : Nat.odd k = Z.odd (Z.of_nat k).
Proof. rewrite <- Z.negb_even, <- Nat.negb_even. f_equal. apply eq_true_iff_eq. rewrite Nat.even_spec, Z.even_spec. split; [intros [m ->]; exists (Z.of_nat m); lia|intros [m Hm]; exists (Z.to_nat m); lia]. Qed.
Lemma fits_moved A B ops f : fits A B ops f -> pb A f = moved (pb B) (map opfrag ops) f.
Proof.
  intros [H0 H1]. unfold moved. rewrite <- gain_parity. unfold CrunchFacts.pb. unfold chg in *. rewrite !odd_nat, <- Z.odd_add. f_equal. lia.
Qed.
Lemma fits_no A B ops f : f < nf -> st_in nl f (A f) -> st_in nl f (B f) -> Forall (okop nf n) ops -> ~ fits A B ops f -> floc n K (sts A) (sts B) ops f = s0.
Proof.
  intros Hf SA SB Ho N. apply (floc_zero nf n K (sts A) (chg A) (sts B) (chg B) ops f Hf); auto.
  - unfold sts, chg. now apply Hne.
  - unfold sts, chg. now apply Hne.
  - intros E. apply N. injection E as E1 E2. now split.
Qed.
Lemma bprod_split l (p : nat -> bool) (g : nat -> K) : bprod K l g = smul (bprod K (filter p l) g) (bprod K (filter (fun f => negb (p f)) l) g).
Proof.
  induction l as [|f l IH]; [cbn; ring|]. cbn [filter]. change (bprod K (f :: l) g) with (smul (g f) (bprod K l g)). rewrite IH. destruct (p f); cbn [negb];
  [change (bprod K (f :: filter p l) g) with (smul (g f) (bprod K (filter p l) g))|change (bprod K (f :: filter (fun f => negb (p f)) l) g) with (smul (g f) (bprod K (filter (fun f => negb (p f)) l) g))]; ring.
Qed.
Lemma at_frag_none f ops : ~ In f (map opfrag ops) -> at_frag f ops = [].
Proof.
  induction ops as [|x ops IH]; intros H; [reflexivity|]. unfold at_frag. cbn [filter]. destruct (Nat.eqb_spec (opfrag x) f) as [E|E]; [exfalso; apply H; now left|]. apply IH. intros I. apply H. now right.
Qed.
Lemma list_min (l : list nat) : l <> [] -> exists m, In m l /\ forall f, In f l -> m <= f.
Proof.
  induction l as [|a l IH]; [congruence|]. intros _. destruct l as [|b l]; [exists a; split; [now left|intros f [<-|[]]; lia]|].
  destruct IH as (m & Im & Hm); [discriminate|]. exists (Nat.min a m). split.
  - destruct (Nat.min_spec a m) as [[_ ->]|[_ ->]]; [now left|now right].
  - intros f [<-|If]; [lia|]. specialize (Hm f If). lia.
Qed.
(** the other fragments contribute overlaps and the signs of the reordering *)
Lemma Lel_elem fr A B ops f0 : Forall (okop nf n) ops -> Nat.even (length ops) = true -> (forall f, In f (map opfrag ops) -> In f fr) -> (forall f, In f fr -> f < nf) ->
  In f0 fr -> (forall f, In f fr -> f0 <= f) -> (forall f, f < nf -> st_in nl f (A f) /\ st_in nl f (B f)) ->
  smul (Lel K nf n V ne fr A B ops)
    (sg K (xorb (xorb (spar nf (chg A)) (spar nf (chg B))) (xorb (fsh nf (fun f => mem f fr) f0 (pb A)) (fsh nf (fun f => mem f fr) f0 (pb B))))
      (bprod K (filter (fun f => negb (mem f fr)) (seq 0 nf)) (fun f => inner K (2 * n f) (sts A f) (sts B f))))
  = elem nf n K (sts A) (sts B) ops.
Proof.
  intros Ho Ev Hs Hfr I0 Hmin Hst. rewrite (elem_factor nf n K (sts A) (chg A) (sts B) (chg B) ops) by (auto; intros f Hf; apply Hne; auto; now apply Hst).
  rewrite (bprod_split (seq 0 nf) (fun f => mem f fr)).
  assert (Esp : bprod K (filter (fun f => negb (mem f fr)) (seq 0 nf)) (floc n K (sts A) (sts B) ops) = bprod K (filter (fun f => negb (mem f fr)) (seq 0 nf)) (fun f => inner K (2 * n f) (sts A f) (sts B f))).
  { apply bprod_ext. intros f Hf. apply filter_In in Hf as [_ Hf]. apply negb_true_iff in Hf. unfold floc. rewrite at_frag_none; [reflexivity|]. intros I. apply Hs in I. apply mem_iff in I. congruence. }
  rewrite <- Esp. unfold Lel, sel. change (fun f => el K n V f (A f) (B f) (at_frag f ops)) with (floc n K (sts A) (sts B) ops).
  destruct (fits_dec A B ops (seq 0 nf)) as [F|(f & If & N)].
  - rewrite <- sg_mul_l || idtac.
    assert (Es : rsign nf (fun _ => true) (par (chg B)) (map opfrag ops) = xorb (rsign nf (fun f => mem f fr) (pb B) (map opfrag ops)) (xorb (fsh nf (fun f => mem f fr) f0 (pb A)) (fsh nf (fun f => mem f fr) f0 (pb B)))).
    { change (par (chg B)) with (pb B). rewrite (rsign_frag nf (fun f => mem f fr) f0 (pb B)).
      - f_equal. f_equal. unfold fsh. apply parity_ext. intros g Hg. rewrite <- (fits_moved A B ops g) by now apply F. f_equal. apply parity_ext. intros h Hh. rewrite <- (fits_moved A B ops h) by now apply F. reflexivity.
      - intros f If. apply Hs in If. split; [now apply mem_iff|]. split; auto.
      - now rewrite map_length. }
    rewrite Es. rewrite !sg_mul. rewrite (Rmul_comm (sring K) (bprod K _ _) (sg K _ _)), sg_mul, sg_sg. rewrite (Rmul_comm (sring K) (bprod K (filter (fun f => negb (mem f fr)) (seq 0 nf)) _)).
    match goal with |- sg K ?a _ = sg K ?b _ => replace a with b by btauto end. reflexivity.
  - apply in_seq in If. destruct (Hst f) as [SA SB]; [lia|]. pose proof (fits_no A B ops f ltac:(lia) SA SB Ho N) as Z.
    destruct (mem f fr) eqn:Em.
    + rewrite (bprod_0 K (filter (fun f => mem f fr) (seq 0 nf)) _ f); [|apply filter_In; split; [apply in_seq; lia|exact Em]|exact Z]. rewrite sg_0.
      transitivity (@s0 K); [ring|]. symmetry. etransitivity; [apply (f_equal (sg K _)); instantiate (1 := s0); ring|apply sg_0].
    + rewrite (bprod_0 K (filter (fun f => negb (mem f fr)) (seq 0 nf)) _ f); [|apply filter_In; split; [apply in_seq; lia|now rewrite Em]|exact Z]. rewrite sg_0.
      transitivity (@s0 K); [ring|]. symmetry. etransitivity; [apply (f_equal (sg K _)); instantiate (1 := s0); ring|apply sg_0].
Qed.
(** nothing between states whose electron numbers do not fit *)
Lemma elem_zero A B ops f : f < nf -> (forall f, f < nf -> st_in nl f (A f) /\ st_in nl f (B f)) -> Forall (okop nf n) ops -> ~ fits A B ops f -> elem nf n K (sts A) (sts B) ops = s0.
Proof.
  intros Hf Hst Ho N. rewrite (elem_factor nf n K (sts A) (chg A) (sts B) (chg B) ops) by (auto; intros g Hg; apply Hne; auto; now apply Hst).
  rewrite (bprod_0 K (seq 0 nf) _ f); [apply sg_0|apply in_seq; lia|]. destruct (Hst f Hf). now apply fits_no.
Qed.
Lemma gain_adj f dn ops : gain f dn (rev (map flip ops)) = (- gain f dn ops)%Z.
Proof.
  assert (G : forall l l', gain f dn (l ++ l') = (gain f dn l + gain f dn l')%Z) by (intros l l'; induction l as [|[k [[g d] o]] l IH]; [reflexivity|]; cbn [app]; rewrite !gain_cons, IH; lia).
  induction ops as [|[k [[g d] o]] ops IH]; [reflexivity|]. cbn [map rev]. rewrite G, IH. unfold flip at 1. cbn [fst snd]. rewrite !gain_cons. change (gain f dn []) with 0%Z. destruct ((g =? f)%nat && eqb dn d), k; cbn [negb kz]; unfold kz; lia.
Qed.
Lemma okop_adj ops : Forall (okop nf n) ops -> Forall (okop nf n) (rev (map flip ops)).
Proof. intros F. rewrite Forall_forall in *. intros x Hx. apply in_rev, in_map_iff in Hx as ([k [[g d] o]] & <- & Hy). exact (F _ Hy). Qed.
Lemma Lel_adj fr A B ops : Forall (okop nf n) ops -> (forall z, In z ops -> In (opfrag z) fr) -> (forall f, In f fr -> f < nf /\ st_in nl f (A f) /\ st_in nl f (B f)) ->
  sconj (Lel K nf n V ne fr A B ops) = Lel K nf n V ne fr B A (rev (map flip ops)).
Proof.
  intros Ho Hi Hst. destruct (fits_dec A B ops fr) as [F|(f & If & N)].
  - apply Lel_conj; auto. intros f If _. now apply fits_moved, F.
  - destruct (Hst f If) as (Hf & SA & SB). rewrite (Lel_zero K nf n V ne nl Hne fr A B ops f) by (auto; intros E; apply N; injection E as E1 E2; now split).
    rewrite (Lel_zero K nf n V ne nl Hne fr B A _ f); auto; [apply sconj_0|now apply okop_adj|]. intros E. apply N. injection E as E1 E2. rewrite gain_adj in E1, E2. unfold fits, chg. lia.
Qed.
Lemma xops_tr x : xops (tix_tr x) = rev (map flip (xops x)).
Proof. now destruct x. Qed.
(** the matrix elements of adjoint operators *)
Lemma gops_adj ops : forall u v : vec K, Forall (okop nf n) ops -> inner K (2 * norb nf n) (gops K nf n ops u) v = inner K (2 * norb nf n) u (gops K nf n (rev (map flip ops)) v).
Proof.
  induction ops as [|[k [[f dn] l]] ops IH]; intros u v F; [reflexivity|]. rewrite Forall_cons_iff in F. destruct F as [[F1 F2] F].
  assert (Hp : gorb nf n f dn l < 2 * norb nf n) by (pose proof (offn_lt n f nf F1); unfold gorb, norb; destruct dn; cbn in F2; lia).
  cbn [map rev flip fst snd negb]. assert (G : forall a b w, gops K nf n (a ++ b) w = gops K nf n a (gops K nf n b w)) by (intros a b w; unfold gops; now rewrite fold_right_app). rewrite G, <- IH by exact F.
  change (gops K nf n ((k, (f, dn, l)) :: ops) u) with (field K (2 * norb nf n) (gorb nf n f dn l) k (gops K nf n ops u)). change (gops K nf n [(negb k, (f, dn, l))] v) with (field K (2 * norb nf n) (gorb nf n f dn l) (negb k) v).
  destruct k; cbn [field negb]; [now apply cre_adj|now apply ann_adj].
Qed.
Lemma elem_adj (u v : nat -> vec K) x : Forall (okop nf n) (xops x) -> sconj (elem nf n K u v (xops (tix_tr x))) = elem nf n K v u (xops x).
Proof.
  intros F. unfold elem. rewrite <- inner_swap. rewrite gops_adj by (rewrite xops_tr; now apply okop_adj). rewrite xops_tr. f_equal. f_equal. rewrite map_rev, rev_involutive, map_map. rewrite <- (map_id (xops x)) at 2. apply map_ext. intros [k [[g d] o]]. unfold flip. cbn. now rewrite negb_involutive.
Qed.
End One.

(** ** Electron numbers that no operator connects *)
Definition cnt_spin (s : nat) (c : list fop) : Z := sumZ (map (fun z : fop => if snd z =? s then 1%Z else 0%Z) c).
Lemma sumZ_add {A} (g h : A -> Z) l : sumZ (map (fun a => (g a + h a)%Z) l) = (sumZ (map g l) + sumZ (map h l))%Z.
Proof. induction l as [|a l IH]; [reflexivity|]. cbn [map sumZ]. unfold sumZ in *. cbn. lia. Qed.
Lemma sumZ_sub {A} (g h : A -> Z) l : sumZ (map (fun a => (g a - h a)%Z) l) = (sumZ (map g l) - sumZ (map h l))%Z.
Proof. induction l as [|a l IH]; [reflexivity|]. unfold sumZ in *. cbn. lia. Qed.
Lemma sumZ_le {A} (g h : A -> Z) l : (forall a, In a l -> (g a <= h a)%Z) -> (sumZ (map g l) <= sumZ (map h l))%Z.
Proof. induction l as [|a l IH]; intros H; [reflexivity|]. pose proof (H a (or_introl eq_refl)). specialize (IH (fun b Hb => H b (or_intror Hb))). unfold sumZ in *. cbn. lia. Qed.
Lemma sum_delta nf g (v : Z) : g < nf -> sumZ (map (fun f => if f =? g then v else 0%Z) (seq 0 nf)) = v.
Proof.
  assert (G : forall k a, sumZ (map (fun f => if f =? g then v else 0%Z) (seq a k)) = if (a <=? g) && (g <? a + k) then v else 0%Z).
  { induction k as [|k IH]; intros a; [replace ((a <=? g) && (g <? a + 0)) with false; [reflexivity|]; symmetry; apply andb_false_iff; destruct (Nat.leb_spec a g); [right; apply Nat.ltb_ge; lia|now left]|].
    cbn [seq map]. change (sumZ (?x :: ?l)) with (x + sumZ l)%Z. rewrite IH. destruct (Nat.eqb_spec a g) as [->|N].
    - rewrite (proj2 (Nat.leb_gt (S g) g)) by lia. rewrite Nat.leb_refl, (proj2 (Nat.ltb_lt g (g + S k))) by lia. cbn. lia.
    - destruct (Nat.leb_spec (S a) g), (Nat.leb_spec a g), (Nat.ltb_spec g (S a + k)), (Nat.ltb_spec g (a + S k)); cbn; lia. }
  intros H. rewrite G. rewrite (proj2 (Nat.ltb_lt g (0 + nf))) by lia. reflexivity.
Qed.
Lemma times_sum nf s c : (forall z, In z c -> fst z < nf) -> sumZ (map (fun f => times (f, s) c) (seq 0 nf)) = cnt_spin s c.
Proof.
  induction c as [|z c IH]; intros H.
  - cbn [times]. unfold cnt_spin. cbn [map]. induction (seq 0 nf) as [|a l IHl]; [reflexivity|]. unfold sumZ in *. cbn. lia.
  - cbn [times fst snd]. rewrite sumZ_add, IH by (intros; apply H; now right). unfold cnt_spin. cbn [map]. change (sumZ (?x :: ?l)) with (x + sumZ l)%Z. f_equal.
    rewrite <- (sum_delta nf (fst z) (if snd z =? s then 1%Z else 0%Z)) by (apply H; now left). f_equal. apply map_ext. intros f. destruct (f =? fst z); [|reflexivity]. rewrite (Nat.eqb_sym s). reflexivity.
Qed.
Lemma times_pos z c : (0 <= times z c)%Z.
Proof. induction c as [|y c IH]; cbn; [lia|]. destruct (fst z =? fst y), (snd z =? snd y); lia. Qed.
Lemma cnt_spins c : (forall z : fop, In z c -> snd z < 2) -> (cnt_spin 0 c + cnt_spin 1 c = Z.of_nat (length c))%Z.
Proof.
  induction c as [|z c IH]; intros H; [reflexivity|]. unfold cnt_spin in *. cbn [map length]. change (sumZ (?x :: ?l)) with (x + sumZ l)%Z. specialize (IH (fun y Hy => H y (or_intror Hy))). pose proof (H z (or_introl eq_refl)).
  destruct (snd z) as [|[|]]; cbn [Nat.eqb]; lia.
Qed.
Lemma sums_map l (p : nat -> (Z * Z) * (Z * Z)) : forall a b d, fold_left sc_acc (map p l) (a, b, d) =
  (a + sumZ (map (fun f => (fst (fst (p f)) - fst (snd (p f)))%Z) l), b + sumZ (map (fun f => (snd (fst (p f)) - snd (snd (p f)))%Z) l),
   d + sumZ (map (fun f => (Z.abs (fst (fst (p f)) - fst (snd (p f))) + Z.abs (snd (fst (p f)) - snd (snd (p f))))%Z) l))%Z.
Proof.
  induction l as [|f l IH]; intros a b d; [unfold sumZ; cbn; f_equal; [f_equal|]; lia|]. cbn [map fold_left]. unfold sc_acc at 2. destruct (p f) as [[ba bb] [ka kb]] eqn:E. rewrite IH. change (sumZ (?x :: ?m)) with (x + sumZ m)%Z. cbn [fst snd]. f_equal; [f_equal|]; lia.
Qed.
Lemma coupled_of nf (b k : nat -> Z * Z) c a : (forall z, In z (c ++ a) -> fst z < nf /\ snd z < 2) -> length c = length a -> length c <= 2 -> cnt_spin 0 c = cnt_spin 0 a -> cnt_spin 1 c = cnt_spin 1 a ->
  (forall f, f < nf -> fst (b f) = (fst (k f) + moves c a f 0)%Z /\ snd (b f) = (snd (k f) + moves c a f 1)%Z) ->
  is_interaction_coupled (map b (seq 0 nf)) (map k (seq 0 nf)) = true.
Proof.
  intros Hz El Hl E0 E1 Hm. unfold is_interaction_coupled, sc_sums.
  replace (combine (map b (seq 0 nf)) (map k (seq 0 nf))) with (map (fun f => (b f, k f)) (seq 0 nf)) by (induction (seq 0 nf) as [|x l IH]; [reflexivity|]; cbn; now rewrite IH).
  rewrite sums_map. cbn [fst snd].
  assert (Hc : forall z, In z c -> fst z < nf) by (intros z I; apply Hz, in_or_app; now left). assert (Ha : forall z, In z a -> fst z < nf) by (intros z I; apply Hz, in_or_app; now right).
  assert (S0 : forall s, sumZ (map (fun f => moves c a f s) (seq 0 nf)) = (cnt_spin s c - cnt_spin s a)%Z) by (intros s; unfold moves; now rewrite sumZ_sub, !times_sum).
  assert (A0 : forall s, (sumZ (map (fun f => Z.abs (moves c a f s)) (seq 0 nf)) <= cnt_spin s c + cnt_spin s a)%Z).
  { intros s. rewrite <- (times_sum nf s c Hc), <- (times_sum nf s a Ha), <- sumZ_add. apply sumZ_le. intros f _. unfold moves. pose proof (times_pos (f, s) c). pose proof (times_pos (f, s) a). lia. }
  rewrite (map_ext_in (fun f => (fst (b f) - fst (k f))%Z) (fun f => moves c a f 0)) by (intros f If; apply in_seq in If; destruct (Hm f) as [? ?]; [lia|lia]).
  rewrite (map_ext_in (fun f => (snd (b f) - snd (k f))%Z) (fun f => moves c a f 1)) by (intros f If; apply in_seq in If; destruct (Hm f) as [? ?]; [lia|lia]).
  rewrite (map_ext_in (fun f => (Z.abs (fst (b f) - fst (k f)) + Z.abs (snd (b f) - snd (k f)))%Z) (fun f => (Z.abs (moves c a f 0) + Z.abs (moves c a f 1))%Z)) by (intros f If; apply in_seq in If; destruct (Hm f) as [-> ->]; [lia|]; f_equal; f_equal; lia).
  rewrite !S0, sumZ_add. pose proof (A0 0). pose proof (A0 1).
  assert (cnt_spin 0 c + cnt_spin 1 c = Z.of_nat (length c))%Z by (apply cnt_spins; intros z I; apply Hz, in_or_app; now left).
  rewrite !andb_true_iff, !Z.eqb_eq, Z.leb_le. lia.
Qed.
