(** Matrix elements between products of fragment states: factors, signs and electron numbers. *)
From Coq Require Import List NArith ZArith Arith Bool Lia Sorting.Permutation.
From Verif Require Import Base BaseFacts Star FockSpec FockFacts FockOps ProdFock PermFock LprodSpec LasFock.
Import ListNotations.
Local Open Scope nat_scope.

Definition opfrag (x : opr) : nat := fst (fst (snd x)).
Definition at_frag (f : nat) (ops : list opr) : list opr := filter (fun x => opfrag x =? f) ops.
Lemma fr_tofop n x : fr (tofop n x) = opfrag x.
Proof. now destruct x as [k [[f dn] l]]. Qed.

(** ** signs *)
Section Sign.
Variable nf : nat.
(** parity of the electrons in the fragments of [P] above f *)
Definition abv (P b : nat -> bool) (f : nat) : bool := parity (fun g => P g && (f <? g) && b g) (seq 0 nf).
Fixpoint rsign (P b : nat -> bool) (fs : list nat) : bool :=
  match fs with [] => false | f :: r => xorb (rsign P b r) (xorb (abv P b f) (parity (Nat.ltb f) r)) end.
Definition moved (b : nat -> bool) (fs : list nat) (g : nat) : bool := xorb (b g) (parity (Nat.eqb g) fs).
Lemma upd_map_seq (c : nat -> bool) f k : forall s, upd f negb (map c (seq s k)) = map (fun g => xorb (f + s =? g) (c g)) (seq s k).
Proof.
  revert f. induction k as [|k IH]; intros f s; [destruct f; reflexivity|]. destruct f as [|f].
  - cbn [seq map upd]. f_equal; [cbn [Nat.add]; rewrite Nat.eqb_refl; now destruct (c s)|]. apply map_ext_in. intros g Hg. apply in_seq in Hg. destruct (Nat.eqb_spec (0 + s) g); [lia|now destruct (c g)].
  - cbn [seq map upd]. f_equal; [destruct (Nat.eqb_spec (S f + s) s); [lia|now destruct (c s)]|]. rewrite IH. apply map_ext_in. intros g _. do 2 f_equal. lia.
Qed.
Lemma flips_eq ops b : flips ops (map b (seq 0 nf)) = map (moved b (map fr ops)) (seq 0 nf).
Proof.
  induction ops as [|x ops IH].
  - apply map_ext. intros g. unfold moved. cbn. now rewrite xorb_false_r.
  - change (flips (x :: ops) (map b (seq 0 nf))) with (upd (fr x) negb (flips ops (map b (seq 0 nf)))). rewrite IH, upd_map_seq. apply map_ext. intros g. unfold moved. cbn [map]. rewrite parity_cons, Nat.add_0_r, (Nat.eqb_sym g).
    destruct (fr x =? g), (b g), (parity _ _); reflexivity.
Qed.
Lemma xors_parity l : xors l = parity (fun x => x) l.
Proof. induction l as [|x l IH]; [reflexivity|]. rewrite parity_cons, <- IH. reflexivity. Qed.
Lemma skipn_seq s k j : skipn j (seq s k) = seq (s + j) (k - j).
Proof. revert s j. induction k as [|k IH]; intros s [|j]; cbn; rewrite ?Nat.add_0_r; auto. rewrite IH. f_equal. lia. Qed.
Lemma xors_skip (c : nat -> bool) f : f < nf -> xors (skipn (S f) (map c (seq 0 nf))) = parity (fun g => (f <? g) && c g) (seq 0 nf).
Proof.
  intros Hf. rewrite xors_parity, skipn_map, parity_map, skipn_seq. cbn [Nat.add]. replace nf with (S f + (nf - S f)) at 2 by lia. rewrite seq_app, parity_app. rewrite (parity_false _ (seq 0 (S f))).
  - rewrite xorb_false_l. apply parity_ext. intros g Hg. apply in_seq in Hg. destruct (Nat.ltb_spec f g); [reflexivity|lia].
  - intros g Hg. apply in_seq in Hg. destruct (Nat.ltb_spec f g); [lia|reflexivity].
Qed.
Lemma parity_count_above (fs : list nat) f : (forall y, In y fs -> y < nf) -> parity (fun g => (f <? g) && parity (Nat.eqb g) fs) (seq 0 nf) = parity (Nat.ltb f) fs.
Proof.
  intros H. rewrite (parity_ext _ (fun g => parity (fun y => (f <? g) && (g =? y)) fs)); [|intros g _; now rewrite parity_and].
  rewrite parity_swap. apply parity_ext. intros y Hy. specialize (H y Hy).
  rewrite (parity_ext _ (fun g => (if Nat.eq_dec y g then true else false) && (f <? g))).
  - apply (parity_single (fun g => f <? g)); [apply seq_NoDup|apply in_seq; lia].
  - intros g _. destruct (Nat.eqb_spec g y), (Nat.eq_dec y g); try congruence; destruct (f <? g); reflexivity.
Qed.
Lemma osign_rsign ops b : (forall x, In x ops -> fr x < nf) -> osign ops (map b (seq 0 nf)) = rsign (fun _ => true) b (map fr ops).
Proof.
  induction ops as [|x ops IH]; intros H; [reflexivity|]. cbn [osign map rsign]. rewrite IH by (intros; apply H; now right). f_equal. rewrite flips_eq, xors_skip by (apply H; now left).
  rewrite <- (parity_count_above (map fr ops)) by (intros y Hy; apply in_map_iff in Hy as (z & <- & Hz); apply H; now right).
  unfold abv. rewrite <- parity_xor. apply parity_ext. intros g _. unfold moved. cbn [andb]. destruct (fr x <? g), (b g), (parity _ _); reflexivity.
Qed.
Lemma rsign_split P b fs : rsign (fun _ => true) b fs = xorb (rsign P b fs) (parity (abv (fun g => negb (P g)) b) fs).
Proof.
  induction fs as [|f fs IH]; [reflexivity|]. cbn [rsign]. rewrite IH, parity_cons.
  replace (abv (fun _ => true) b f) with (xorb (abv P b f) (abv (fun g => negb (P g)) b f)).
  - destruct (rsign P b fs), (abv P b f), (abv (fun g => negb (P g)) b f), (parity (Nat.ltb f) fs), (parity (abv _ b) fs); reflexivity.
  - unfold abv. rewrite <- parity_xor. apply parity_ext. intros g _. destruct (P g), (f <? g), (b g); reflexivity.
Qed.
(** electrons of spectators between the lowest involved fragment and each involved fragment *)
Definition fsh (P : nat -> bool) (f0 : nat) (b : nat -> bool) : bool :=
  parity (fun f => P f && b f && parity (fun g => negb (P g) && (f0 <? g) && (g <? f) && b g) (seq 0 nf)) (seq 0 nf).
Lemma parity_const (c : bool) {A} (l : list A) : Nat.even (length l) = true -> parity (fun _ => c) l = false.
Proof.
  intros H. destruct c; [|now apply parity_false]. assert (G : forall l : list A, parity (fun _ => true) l = Nat.odd (length l)).
  { induction l0 as [|x l0 IH]; [reflexivity|]. rewrite parity_cons, IH. cbn [length]. now rewrite Nat.odd_succ, <- Nat.negb_odd. }
  rewrite G, <- Nat.negb_even, H. reflexivity.
Qed.
Lemma fsh_moved P f0 b fs : (forall f, In f fs -> P f = true /\ f0 <= f < nf) -> Nat.even (length fs) = true ->
  xorb (fsh P f0 (moved b fs)) (fsh P f0 b) = parity (abv (fun g => negb (P g)) b) fs.
Proof.
  intros H Ev. assert (S : forall g, P g = false -> moved b fs g = b g).
  { intros g Hg. unfold moved. rewrite parity_false; [apply xorb_false_r|]. intros f Hf. destruct (Nat.eqb_spec g f) as [->|]; [|reflexivity]. destruct (H f Hf). congruence. }
  transitivity (parity (fun f => parity (fun x => (f =? x) && parity (fun g => negb (P g) && (f0 <? g) && (g <? f) && b g) (seq 0 nf)) fs) (seq 0 nf)).
  - unfold fsh. rewrite <- parity_xor. apply parity_ext. intros f _.
    rewrite (parity_ext (fun g => negb (P g) && (f0 <? g) && (g <? f) && moved b fs g) (fun g => negb (P g) && (f0 <? g) && (g <? f) && b g)) by (intros g _; destruct (P g) eqn:E; [reflexivity|]; now rewrite S).
    set (q := parity (fun g => negb (P g) && (f0 <? g) && (g <? f) && b g) (seq 0 nf)).
    rewrite (parity_ext (fun x => (f =? x) && q) (fun x => q && (f =? x))) by (intros; apply andb_comm). rewrite parity_and. destruct (P f) eqn:E.
    + unfold moved. cbn [andb]. destruct (b f), (parity (Nat.eqb f) fs), q; reflexivity.
    + cbn [andb xorb]. replace (parity (Nat.eqb f) fs) with false; [now destruct q|]. symmetry. apply parity_false. intros x Hx. destruct (Nat.eqb_spec f x) as [->|]; [|reflexivity]. destruct (H x Hx). congruence.
  - rewrite parity_swap.
    rewrite (parity_ext _ (fun x => parity (fun g => negb (P g) && (f0 <? g) && (g <? x) && b g) (seq 0 nf))).
    + set (c := parity (fun g => negb (P g) && (f0 <? g) && b g) (seq 0 nf)). transitivity (xorb (parity (fun _ => c) fs) (parity (abv (fun g => negb (P g)) b) fs)); [|rewrite parity_const by exact Ev; apply xorb_false_l].
      rewrite <- parity_xor. apply parity_ext. intros x Hx. destruct (H x Hx) as [Px Lx]. unfold c, abv. rewrite <- parity_xor. apply parity_ext. intros g _.
      destruct (P g) eqn:E; [reflexivity|]. assert (g <> x) by congruence. cbn [negb andb]. destruct (Nat.ltb_spec g x), (Nat.ltb_spec x g), (Nat.ltb_spec f0 g); try lia; destruct (b g); reflexivity.
    + intros x Hx. destruct (H x Hx) as [Px Lx].
      rewrite (parity_ext _ (fun f => (if Nat.eq_dec x f then true else false) && parity (fun g => negb (P g) && (f0 <? g) && (g <? f) && b g) (seq 0 nf))).
      * apply (parity_single (fun f => parity (fun g => negb (P g) && (f0 <? g) && (g <? f) && b g) (seq 0 nf))); [apply seq_NoDup|apply in_seq; lia].
      * intros f _. destruct (Nat.eqb_spec f x), (Nat.eq_dec x f); try congruence; reflexivity.
Qed.
(** the sign splits into one from the involved fragments and the shuffles of the spectators *)
Theorem rsign_frag P f0 b fs : (forall f, In f fs -> P f = true /\ f0 <= f < nf) -> Nat.even (length fs) = true ->
  rsign (fun _ => true) b fs = xorb (rsign P b fs) (xorb (fsh P f0 (moved b fs)) (fsh P f0 b)).
Proof. intros H Ev. now rewrite fsh_moved, rsign_split with (P := P). Qed.
End Sign.

Section Elem.
Variables (nf : nat) (n : nat -> nat).
Variable K : star_ring.
Add Ring Kr : (sring K).
Local Open Scope star_scope.
Notation NO := (norb nf n).

(** ** factors *)
Lemma act_frags f k p (v : nat -> vec K) : act K f k p (frags nf n K v) = frags nf n K (fun g => if (f =? g)%nat then fld K k (2 * n g) p (v g) else v g).
Proof.
  unfold act, frags. assert (G : forall c s, upd c (fun x : nat * vec K => (fst x, fld K k (fst x) p (snd x))) (map (fun f => (2 * n f, v f)%nat) (seq s nf)) = map (fun g => (2 * n g, if (c + s =? g)%nat then fld K k (2 * n g) p (v g) else v g)%nat) (seq s nf)).
  { induction nf as [|m IH]; intros c s; [destruct c; reflexivity|]. destruct c as [|c].
    - cbn [seq map upd fst snd]. f_equal; [now rewrite Nat.eqb_refl|]. apply map_ext_in. intros g Hg. apply in_seq in Hg. destruct (Nat.eqb_spec (0 + s) g); [lia|reflexivity].
    - cbn [seq map upd]. f_equal; [destruct (Nat.eqb_spec (S c + s) s); [lia|reflexivity]|]. rewrite IH. apply map_ext_in. intros g _. replace (c + S s)%nat with (S c + s)%nat by lia. reflexivity. }
  rewrite G. apply map_ext. intros g. now rewrite Nat.add_0_r.
Qed.
Lemma acts_frags ops (v : nat -> vec K) : acts K (map (tofop n) ops) (frags nf n K v) = frags nf n K (fun f => lops K n (at_frag f ops) (v f)).
Proof.
  induction ops as [|[k [[f dn] l]] ops IH]; [reflexivity|]. cbn [map]. change (acts K (?x :: ?r) ?w) with (act K (fr x) (fst (fst x)) (snd x) (acts K r w)). rewrite IH, act_frags. cbn [tofop fr fst snd].
  unfold frags. apply map_ext. intros g. f_equal. unfold at_frag. cbn [filter opfrag fst snd]. destruct (Nat.eqb_spec f g) as [->|]; reflexivity.
Qed.
Lemma inners_frags (u w : nat -> vec K) : inners K (frags nf n K u) (frags nf n K w) = bprod K (seq 0 nf) (fun f => inner K (2 * n f) (u f) (w f)).
Proof. unfold inners, frags, bprod. induction (seq 0 nf) as [|f l IH]; [reflexivity|]. cbn [map combine fold_right fst snd] in *. now rewrite IH. Qed.
Definition par (ne : nat -> nat * nat) (f : nat) : bool := Nat.odd (fst (ne f) + snd (ne f)).
Lemma frags_pdefs v ne : (forall f, (f < nf)%nat -> has_nelec K (n f) (ne f) (v f)) -> pdefs K (frags nf n K v) (map (par ne) (seq 0 nf)).
Proof.
  intros H. unfold pdefs, frags. assert (G : forall l, (forall f, In f l -> (f < nf)%nat) -> Forall2 (fun x b => pdef K (fst x) b (snd x)) (map (fun f => (2 * n f, v f)%nat) l) (map (par ne) l)).
  { induction l as [|f l IH]; intros I; constructor; [|apply IH; intros; apply I; now right]. cbn [fst snd]. apply frag_pdef, H, I. now left. }
  apply G. intros f Hf. apply in_seq in Hf. lia.
Qed.
Definition elem (u v : nat -> vec K) (ops : list opr) : K := inner K (2 * NO) (las_state K nf n u) (gops K nf n ops (las_state K nf n v)).
Definition floc (u v : nat -> vec K) (ops : list opr) (f : nat) : K := inner K (2 * n f) (u f) (lops K n (at_frag f ops) (v f)).
Theorem elem_factor u nu v nv ops : (forall f, (f < nf)%nat -> has_nelec K (n f) (nu f) (u f)) -> (forall f, (f < nf)%nat -> has_nelec K (n f) (nv f) (v f)) -> Forall (okop nf n) ops ->
  elem u v ops = sg K (xorb (xorb (spar nf nu) (spar nf nv)) (rsign nf (fun _ => true) (par nv) (map opfrag ops))) (bprod K (seq 0 nf) (floc u v ops)).
Proof.
  intros Hu Hv Ho. unfold elem. rewrite (las_element nf n K u nu v nv ops Hu Hv Ho). rewrite <- (sg_sg K (xorb (spar nf nu) (spar nf nv)) (rsign nf (fun _ => true) (par nv) (map opfrag ops))). apply (f_equal (sg K (xorb (spar nf nu) (spar nf nv)))).
  assert (F : Forall (fits K (frags nf n K v)) (map (tofop n) ops)).
  { apply Forall_forall. intros x Hx. apply in_map_iff in Hx as ([k [[f dn] l]] & <- & Hx). rewrite Forall_forall in Ho. destruct (Ho _ Hx) as [Hf Hl]. exists (2 * n f)%nat, (v f). split; [|cbn [tofop fr fst snd]; unfold lorb; destruct dn; lia].
    unfold frags. cbn [tofop fr fst snd]. rewrite nth_error_map, nth_error_nth' with (d := 0%nat) by (rewrite seq_length; lia). cbn. rewrite seq_nth by lia. reflexivity. }
  pose proof (string_prod K _ _ _ (frags_pdefs v nv Hv) F) as E. rewrite tot_frags in E.
  rewrite (inner_ext K (2 * NO) _ _ _ _ (fun d _ => eq_refl) E).
  rewrite acts_frags. rewrite osign_rsign.
  2:{ intros x Hx. apply in_map_iff in Hx as ([k [[f dn] l]] & <- & Hx). rewrite Forall_forall in Ho. destruct (Ho _ Hx) as [Hf Hl]. exact Hf. }
  replace (map fr (map (tofop n) ops)) with (map opfrag ops) by (rewrite map_map; apply map_ext; intros x; symmetry; apply fr_tofop).
  set (s := rsign _ _ _ _). transitivity (sg K s (inner K (2 * NO) (prodv K (frags nf n K u)) (prodv K (frags nf n K (fun f => lops K n (at_frag f ops) (v f)))))).
  - unfold inner. transitivity (bsum (dets (2 * NO)) (fun d => sg K s s1 * (sconj (prodv K (frags nf n K u) d) * prodv K (frags nf n K (fun f => lops K n (at_frag f ops) (v f))) d))).
    + apply bsum_ext. intros d _. rewrite mul_sg, sg_mul. apply (f_equal (sg K s)). ring.
    + rewrite <- bsum_mul_l, sg_mul. apply (f_equal (sg K s)). ring.
  - apply (f_equal (sg K s)). rewrite <- (tot_frags nf n K u), inner_prod; [apply inners_frags|]. unfold frags. rewrite !map_map. reflexivity.
Qed.

(** ** electron numbers *)
Definition zdef (m : nat) (za zb : Z) (v : vec K) : Prop := forall d, (d < 2 ^ N.of_nat (2 * m))%N ->
  v d = s0 \/ (Z.of_nat (count (bt d) (seq m m)) = za /\ Z.of_nat (count (bt d) (seq 0 m)) = zb).
Lemma zdef_nelec m ne v : has_nelec K m ne v -> zdef m (Z.of_nat (fst ne)) (Z.of_nat (snd ne)) v.
Proof. intros H d Hd. destruct (H d Hd) as [E|[E1 E2]]; [now left|right; now rewrite E1, E2]. Qed.
Lemma count_toggle (p q : nat -> bool) l x : NoDup l -> (forall y, In y l -> y <> x -> p y = q y) -> (In x l -> p x = true /\ q x = false) ->
  count p l = (count q l + if in_dec Nat.eq_dec x l then 1 else 0)%nat.
Proof.
  unfold count. induction 1 as [|y l Hy Hn IH]; intros H1 H2; [reflexivity|]. specialize (IH (fun z Hz => H1 z (or_intror Hz)) (fun Hx => H2 (or_intror Hx))). cbn [filter].
  destruct (Nat.eq_dec y x) as [->|Ne].
  - destruct (H2 (or_introl eq_refl)) as [-> ->]. cbn [length]. rewrite IH. destruct (in_dec Nat.eq_dec x l); [contradiction|]. destruct (in_dec Nat.eq_dec x (x :: l)) as [|F]; [lia|]. exfalso. apply F. now left.
  - rewrite (H1 y (or_introl eq_refl) Ne). assert (E : (if in_dec Nat.eq_dec x (y :: l) then 1 else 0)%nat = (if in_dec Nat.eq_dec x l then 1 else 0)%nat).
    { destruct (in_dec Nat.eq_dec x (y :: l)) as [[I|I]|I], (in_dec Nat.eq_dec x l); try congruence; try reflexivity. exfalso. apply I. now right. }
    rewrite E. destruct (q y); cbn [length]; lia.
Qed.
Definition kz (k : bool) : Z := if k then 1%Z else (-1)%Z.
Definition upz (dn : bool) (z : Z) : Z := if dn then 0%Z else z.
Definition dnz (dn : bool) (z : Z) : Z := if dn then z else 0%Z.
Lemma field_zdef m za zb (v : vec K) k dn l : (l < m)%nat -> zdef m za zb v -> zdef m (za + upz dn (kz k)) (zb + dnz dn (kz k)) (field K (2 * m) ((if dn then 0 else m) + l) k v).
Proof.
  intros Hl Z d Hd. set (p := ((if dn then 0 else m) + l)%nat). assert (Hp : (p < 2 * m)%nat) by (unfold p; destruct dn; lia).
  assert (Iu : (if in_dec Nat.eq_dec p (seq m m) then 1 else 0)%nat = if dn then 0%nat else 1%nat).
  { destruct (in_dec Nat.eq_dec p (seq m m)) as [I|I]; rewrite in_seq in I; unfold p in I; destruct dn; try reflexivity; exfalso; lia. }
  assert (Id : (if in_dec Nat.eq_dec p (seq 0 m) then 1 else 0)%nat = if dn then 1%nat else 0%nat).
  { destruct (in_dec Nat.eq_dec p (seq 0 m)) as [I|I]; rewrite in_seq in I; unfold p in I; destruct dn; try reflexivity; exfalso; lia. }
  unfold field. destruct k; unfold cre, ann; destruct (bt d p) eqn:B; auto.
  - destruct (Z (cb d p) (cb_lt _ _ _ Hd)) as [E|[E1 E2]]; [left; rewrite E; apply sg_0|right].
    assert (T : forall L, NoDup L -> count (bt d) L = (count (bt (cb d p)) L + if in_dec Nat.eq_dec p L then 1 else 0)%nat).
    { intros L NL. apply count_toggle; [exact NL| |]; intros; rewrite bt_cb; [destruct (Nat.eqb_spec p y); [congruence|reflexivity]|now rewrite Nat.eqb_refl]. }
    rewrite !T by apply seq_NoDup. rewrite Iu, Id. unfold upz, dnz, kz. destruct dn; lia.
  - destruct (Z (sb d p) (sb_lt _ _ _ Hd Hp)) as [E|[E1 E2]]; [left; rewrite E; apply sg_0|right].
    assert (T : forall L, NoDup L -> count (bt (sb d p)) L = (count (bt d) L + if in_dec Nat.eq_dec p L then 1 else 0)%nat).
    { intros L NL. apply count_toggle; [exact NL| |]; intros; rewrite bt_sb; [destruct (Nat.eqb_spec p y); [congruence|reflexivity]|now rewrite Nat.eqb_refl]. }
    rewrite !T in * by apply seq_NoDup. rewrite Iu, Id in *. unfold upz, dnz, kz. destruct dn; lia.
Qed.
(** electrons gained by fragment f: spin up, spin down *)
Definition gain (f : nat) (dn : bool) (ops : list opr) : Z :=
  sumZ (map (fun x : opr => let '(k, (g, dn', l)) := x in if (g =? f)%nat && Bool.eqb dn dn' then kz k else 0%Z) ops).
Lemma gain_cons k g dn' l ops f dn : gain f dn ((k, (g, dn', l)) :: ops) = ((if (g =? f)%nat && Bool.eqb dn dn' then kz k else 0%Z) + gain f dn ops)%Z.
Proof. reflexivity. Qed.
Lemma lops_zdef f za zb (v : vec K) ops : zdef (n f) za zb v -> (forall x, In x ops -> okop nf n x) -> zdef (n f) (za + gain f false ops) (zb + gain f true ops) (lops K n (at_frag f ops) v).
Proof.
  intros Z. induction ops as [|[k [[g dn] l]] ops IH]; intros Ho.
  - intros d Hd. destruct (Z d Hd) as [E|E]; [now left|right]. unfold gain. cbn. lia.
  - specialize (IH (fun x Hx => Ho x (or_intror Hx))). destruct (Ho _ (or_introl eq_refl)) as [Hg Hl]. rewrite !gain_cons. unfold at_frag in *. cbn [filter opfrag fst snd]. destruct (Nat.eqb_spec g f) as [->|Ne].
    + cbn [lops fold_right andb]. pose proof (field_zdef (n f) _ _ _ k dn l Hl IH) as H. change ((if dn then 0 else n f) + l)%nat with (lorb n f dn l) in H. intros d Hd. destruct (H d Hd) as [E|E]; [left; exact E|right]. unfold upz, dnz in E. destruct dn; cbn [Bool.eqb]; lia.
    + cbn [andb]. intros d Hd. destruct (IH d Hd) as [E|E]; [left; exact E|right]. lia.
Qed.
Lemma inner_zdef m za zb za' zb' (u v : vec K) : zdef m za zb u -> zdef m za' zb' v -> (za, zb) <> (za', zb') -> inner K (2 * m) u v = s0.
Proof.
  intros Hu Hv Ne. unfold inner. apply bsum_0. intros d Hd. apply in_dets in Hd. destruct (Hu d Hd) as [->|[<- <-]]; [rewrite sconj_0; ring|]. destruct (Hv d Hd) as [->|[<- <-]]; [ring|]. congruence.
Qed.
Lemma floc_zero u nu v nv ops f : (f < nf)%nat -> has_nelec K (n f) (nu f) (u f) -> has_nelec K (n f) (nv f) (v f) -> Forall (okop nf n) ops ->
  (Z.of_nat (fst (nu f)), Z.of_nat (snd (nu f))) <> (Z.of_nat (fst (nv f)) + gain f false ops, Z.of_nat (snd (nv f)) + gain f true ops)%Z -> floc u v ops f = s0.
Proof.
  intros Hf Hu Hv Ho Ne. rewrite Forall_forall in Ho. unfold floc. eapply inner_zdef; [apply zdef_nelec, Hu|apply lops_zdef; [apply zdef_nelec, Hv|exact Ho]|exact Ne].
Qed.
End Elem.
