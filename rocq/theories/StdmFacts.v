(** Addresses of states with some fragments frozen; entries of the spectator overlap matrix. *)
From Coq Require Import List ZArith Bool Arith Lia Permutation Ring.
From Verif Require Import Base BaseFacts Star AddrModel AddrFacts AddrSpec AddrProofs StdmModel.
Import ListNotations.
Local Open Scope nat_scope.

Definition sel (l : list nat) (fr : list nat) : list nat := map (fun f => nth f l 0) fr.
(** position of a state among those that differ on the fragments fr *)
Definition pack (col fr e : list nat) : nat := colmajor (sel col fr) (sel e fr).

Lemma in_range_nth dims ds : in_range dims ds <-> length ds = length dims /\ forall f, f < length dims -> nth f ds 0 < nth f dims 0.
Proof.
  split.
  - induction 1 as [|d x dims ds H1 H2 IH]; [split; [reflexivity|cbn; lia]|]. destruct IH as [L IH]. split; [cbn; lia|]. intros [|f] Hf; [exact H1|]. apply IH. cbn in Hf. lia.
  - revert ds. induction dims as [|d dims IH]; intros [|x ds] [L H]; try discriminate; [constructor|]. constructor; [exact (H 0 ltac:(cbn; lia))|]. apply IH. split; [cbn in L; lia|].
    intros f Hf. exact (H (S f) ltac:(cbn; lia)).
Qed.
Lemma sel_range col fr e : in_range col e -> (forall f, In f fr -> f < length col) -> in_range (sel col fr) (sel e fr).
Proof.
  intros H Hf. apply in_range_nth in H as [L H]. induction fr as [|f fr IH]; [constructor|]. cbn. constructor; [apply H, Hf; now left | apply IH; intros; apply Hf; now right].
Qed.
Lemma pack_lt col fr e : in_range col e -> (forall f, In f fr -> f < length col) -> pack col fr e < prodN (sel col fr).
Proof. intros H Hf. apply colmajor_lt, sel_range; auto. Qed.
Lemma colmajor_inj dims a b : in_range dims a -> in_range dims b -> colmajor dims a = colmajor dims b -> a = b.
Proof.
  intros Ha Hb E. pose proof (in_range_length _ _ Ha) as La. pose proof (in_range_length _ _ Hb) as Lb.
  apply (nth_ext _ _ 0 0); [lia|]. intros f Hf. rewrite <- (colmajor_digit dims a f Ha), <- (colmajor_digit dims b f Hb) by lia. now rewrite E.
Qed.
Lemma pack_inj col fr a b : in_range col a -> in_range col b -> (forall f, In f fr -> f < length col) -> pack col fr a = pack col fr b -> forall f, In f fr -> nth f a 0 = nth f b 0.
Proof.
  intros Ha Hb Hf E f If. apply colmajor_inj in E; [|now apply sel_range|now apply sel_range]. revert E If. clear. unfold sel. induction fr as [|g fr IH]; [intros _ []|].
  cbn. intros E [->|I]; [congruence|]. apply IH; congruence.
Qed.
Lemma pack_ext col col' fr e e' : (forall f, In f fr -> nth f col 0 = nth f col' 0) -> (forall f, In f fr -> nth f e 0 = nth f e' 0) -> pack col fr e = pack col' fr e'.
Proof. intros H1 H2. unfold pack, sel. f_equal; apply map_ext_in; auto. Qed.

Lemma nth_map_lt {A B} (g : A -> B) l i d d' : i < length l -> nth i (map g l) d' = g (nth i l d).
Proof. revert i. induction l as [|x l IH]; intros [|i] H; cbn in *; try lia; auto. apply IH. lia. Qed.
Lemma nth_map_seq0 {B} (g : nat -> B) m i d' : i < m -> nth i (map g (seq 0 m)) d' = g i.
Proof. intros H. rewrite (nth_map_lt g _ _ 0) by now rewrite seq_length. now rewrite seq_nth. Qed.
(** any choice of local states on each of two complementary sets of fragments *)
Fixpoint pos (f : nat) (l : list nat) : nat := match l with [] => 0 | g :: r => if f =? g then 0 else S (pos f r) end.
Lemma pos_nth f l : In f l -> pos f l < length l /\ nth (pos f l) l 0 = f.
Proof.
  induction l as [|g l IH]; [intros []|]. cbn. destruct (Nat.eqb_spec f g) as [->|N]; [split; [lia|reflexivity]|]. intros [->|I]; [now contradict N|]. destruct (IH I). split; [lia|auto].
Qed.
Lemma pos_nodup l i : NoDup l -> i < length l -> pos (nth i l 0) l = i.
Proof.
  intros N. revert i. induction N as [|g l Hg N IH]; cbn; [lia|]. intros [|i] Hi; [now rewrite Nat.eqb_refl|].
  destruct (Nat.eqb_spec (nth i l 0) g) as [<-|]; [exfalso; apply Hg, nth_In; lia|]. rewrite IH; lia.
Qed.
Lemma sel_pos (fr ds : list nat) (m : list nat) : NoDup fr -> length ds = length fr -> (forall f, In f fr -> nth f m 0 = nth (pos f fr) ds 0) -> sel m fr = ds.
Proof.
  intros N L H. apply (nth_ext _ _ 0 0); [unfold sel; now rewrite map_length|]. intros i Hi. unfold sel in *. rewrite map_length in Hi.
  rewrite (nth_map_lt _ _ _ 0), H by (try (apply nth_In); lia). now rewrite pos_nodup.
Qed.
Lemma merge col fr sp a i : NoDup fr -> NoDup sp -> (forall f, f < length col -> In f fr \/ In f sp) -> (forall f, In f fr -> In f sp -> False) ->
  (forall f, In f fr \/ In f sp -> f < length col) -> a < prodN (sel col fr) -> i < prodN (sel col sp) ->
  exists m, in_range col m /\ pack col fr m = a /\ pack col sp m = i.
Proof.
  intros Nf Ns Hc Hd Hl Ha Hi. destruct (colmajor_surj _ _ Ha) as (da & Ra & Ea). destruct (colmajor_surj _ _ Hi) as (di & Ri & Ei).
  set (g := fun f => if in_dec Nat.eq_dec f fr then nth (pos f fr) da 0 else nth (pos f sp) di 0).
  set (m := map g (seq 0 (length col))).
  assert (Nm : forall f, f < length col -> nth f m 0 = g f).
  { intros f Hf. unfold m. now rewrite nth_map_seq0. }
  pose proof (in_range_length _ _ Ra) as La. pose proof (in_range_length _ _ Ri) as Li. unfold sel in La, Li. rewrite map_length in La, Li.
  assert (Lm : length m = length col) by (unfold m; now rewrite map_length, seq_length).
  assert (Sf : sel m fr = da).
  { apply sel_pos; auto. intros f If. rewrite Nm by auto. unfold g. destruct (in_dec Nat.eq_dec f fr); [reflexivity|contradiction]. }
  assert (Ss : sel m sp = di).
  { apply sel_pos; auto. intros f If. rewrite Nm by auto. unfold g. destruct (in_dec Nat.eq_dec f fr) as [I|]; [destruct (Hd f I If)|reflexivity]. }
  exists m. split; [|split].
  - apply in_range_nth. split; [exact Lm|]. intros f Hf.
    assert (G : forall l ds, in_range (sel col l) ds -> sel m l = ds -> In f l -> nth f m 0 < nth f col 0).
    { intros l ds R E I. apply in_range_nth in R as [_ R]. destruct (pos_nth f l I) as [P1 P2]. specialize (R (pos f l)). unfold sel in R, E. rewrite map_length in R. specialize (R P1). rewrite <- E in R.
      rewrite (nth_map_lt (fun f => nth f m 0) l _ 0), (nth_map_lt (fun f => nth f col 0) l _ 0), P2 in R by lia. exact R. }
    destruct (Hc f Hf) as [I|I]; [exact (G fr da Ra Sf I) | exact (G sp di Ri Ss I)].
  - unfold pack. now rewrite Sf.
  - unfold pack. now rewrite Ss.
Qed.

(** ** weighted sums of digits *)
Lemma strides_colmajor col : forall acc ds, length ds = length col -> dotN (strides_from acc col) ds = acc * colmajor col ds.
Proof.
  induction col as [|d col IH]; intros acc [|x ds] L; try discriminate; cbn; [lia|]. rewrite IH by (cbn in L; lia). ring.
Qed.
Lemma strides_length col : forall acc, length (strides_from acc col) = length col.
Proof. induction col; intros; cbn; auto. Qed.
Lemma dotN_comm a : forall b, dotN a b = dotN b a.
Proof. induction a as [|x a IH]; intros [|y b]; cbn; auto. rewrite IH. lia. Qed.
Lemma dotN_map {A} (g h : A -> nat) l : dotN (map g l) (map h l) = sum_nat (map (fun f => g f * h f) l).
Proof. induction l; cbn; auto. Qed.
Lemma dotN_seq a b n : length a = n -> length b = n -> dotN a b = sum_nat (map (fun f => nth f a 0 * nth f b 0) (seq 0 n)).
Proof.
  intros La Lb. rewrite <- dotN_map. f_equal; [rewrite <- La | rewrite <- Lb]; (apply (nth_ext _ _ 0 0); [now rewrite map_length, seq_length|]); intros i Hi.
  - now rewrite nth_map_seq0.
  - now rewrite nth_map_seq0.
Qed.
Lemma sum_nat_perm l l' : Permutation l l' -> sum_nat l = sum_nat l'.
Proof. induction 1; cbn; lia. Qed.

Section Ranges.
  Variable pyset : list nat -> list nat.
  Variable lroots : list (list nat).
  Let n := length lroots.
  Let nroots := length (hd [] lroots).
  Hypothesis Hne : lroots <> [].
  Hypothesis Hrect : Forall (fun row => length row = nroots) lroots.
  Let col r := column lroots r.
  Definition address (r : nat) (e : list nat) : nat := states_before lroots r + colmajor (dims_of lroots r) e.
  Definition part (r : nat) (fr e : list nat) : nat := sum_nat (map (fun f => nth f (strides lroots r) 0 * nth f e 0) fr).
  Lemma col_len r : length (col r) = n.
  Proof. apply map_length. Qed.
  Lemma addr0_eq r : r < nroots -> addr0 lroots r = states_before lroots r.
  Proof.
    intros Hr. unfold addr0. fold nroots. rewrite nth_offs0 by (rewrite map_length, seq_length; lia). symmetry. apply states_before_off; lia.
  Qed.
  Lemma range_len r fr : length (get_addr_range pyset lroots r fr) = prodN (sel (col r) (pyset fr)).
  Proof. unfold get_addr_range. rewrite map_length, seq_length. reflexivity. Qed.
  Lemma range_nth r fr e : in_range (col r) e -> (forall f, In f (pyset fr) -> f < n) ->
    nth (pack (col r) (pyset fr) e) (get_addr_range pyset lroots r fr) 0 = addr0 lroots r + part r (pyset fr) e.
  Proof.
    intros R Hf. unfold get_addr_range. set (s := pyset fr) in *. set (cs := map (fun f => nth f (column lroots r) 0) s).
    assert (Hf' : forall f, In f s -> f < length (col r)) by (intros; rewrite col_len; auto).
    pose proof (pack_lt _ _ _ R Hf') as P. pose proof (sel_range _ _ _ R Hf') as R'.
    set (F := fun a => addr0 lroots r + dotN (map (fun f => nth f (strides lroots r) 0) s) (map (fun i => nth a (frag_addrs cs i) 0) (seq 0 (length s)))).
    change (sel (col r) s) with cs in *.
    rewrite (nth_map_seq0 F) by exact P. unfold F. f_equal. unfold part.
    rewrite <- dotN_map. f_equal. apply (nth_ext _ _ 0 0); [now rewrite !map_length, seq_length|]. intros i Hi. rewrite map_length, seq_length in Hi.
    rewrite nth_map_seq0 by exact Hi.
    assert (Lc : i < length cs) by (unfold cs; now rewrite map_length).
    pose proof (frag_addrs_nth cs i _ Lc P) as E. apply nth_error_nth with (d := 0) in E. rewrite E. unfold pack. change (sel (col r) s) with cs. rewrite colmajor_digit by auto.
    reflexivity.
  Qed.
  Lemma part_ext r fr e e' : (forall f, In f fr -> nth f e 0 = nth f e' 0) -> part r fr e = part r fr e'.
  Proof. intros H. unfold part. f_equal. apply map_ext_in. intros f If. now rewrite H. Qed.
  Lemma address_parts r fr sp e : r < nroots -> in_range (col r) e -> Permutation (fr ++ sp) (seq 0 n) -> address r e = addr0 lroots r + part r fr e + part r sp e.
  Proof.
    intros Hr R P. unfold address. rewrite addr0_eq by exact Hr. pose proof (in_range_length _ _ R) as L. rewrite col_len in L.
    assert (E : colmajor (dims_of lroots r) e = dotN (strides lroots r) e).
    { unfold strides. rewrite strides_colmajor; [|now rewrite L, <- (col_len r)]. change (dims_of lroots r) with (column lroots r). lia. }
    rewrite E. rewrite (dotN_seq _ _ n); [|unfold strides; rewrite strides_length; apply col_len | exact L]. rewrite <- Nat.add_assoc. f_equal.
    unfold part. rewrite <- sum_nat_app, <- map_app. apply sum_nat_perm. symmetry. now apply Permutation_map.
  Qed.
  Lemma dot_part r e fr sp : length e = n -> Permutation (fr ++ sp) (seq 0 n) -> (forall f, In f sp -> nth f e 0 = 0) -> dotN e (strides lroots r) = part r fr e.
  Proof.
    intros L P Z. rewrite dotN_comm, (dotN_seq _ _ n); [|unfold strides; rewrite strides_length; apply col_len | exact L].
    rewrite <- (sum_nat_perm _ _ (Permutation_map _ P)), map_app, sum_nat_app. replace (sum_nat (map (fun f => nth f (strides lroots r) 0 * nth f e 0) sp)) with 0; [unfold part; lia|].
    clear P. induction sp as [|f sp IH]; [reflexivity|]. cbn. rewrite (Z f) by now left. rewrite <- IH; [lia|]. intros g Hg. apply Z. now right.
  Qed.
End Ranges.

(** ** the overlap matrix of the spectators *)
Section Kron.
  Context {K : star_ring}.
  Add Ring Kring : (sring K).
  Definition mat_at (a : list (list K)) (i j : nat) : K := nth j (nth i a []) s0.
  Definition shaped (a : list (list K)) (p q : nat) : Prop := length a = p /\ forall row, In row a -> length row = q.
  Lemma flat_nth {A B} (g : A -> list B) l k i j d d' : (forall x, In x l -> length (g x) = k) -> i < length l -> j < k -> nth (i * k + j) (flat_map g l) d = nth j (g (nth i l d')) d.
  Proof.
    intros Hk. revert i. induction l as [|x l IH]; intros i Hi Hj; [cbn in Hi; lia|]. cbn [flat_map]. pose proof (Hk x (or_introl eq_refl)) as Lx. destruct i as [|i].
    - cbn [Nat.mul Nat.add nth]. rewrite app_nth1 by lia. reflexivity.
    - rewrite app_nth2 by (rewrite Lx; cbn [Nat.mul]; lia). rewrite Lx. replace (S i * k + j - k) with (i * k + j) by (cbn [Nat.mul]; lia). cbn [nth]. apply IH; [|cbn in Hi; lia|exact Hj]. intros y Hy. apply Hk. now right.
  Qed.
  Lemma flat_len {A B} (g : A -> list B) l k : (forall x, In x l -> length (g x) = k) -> length (flat_map g l) = length l * k.
  Proof. induction l as [|x l IH]; intros H; [reflexivity|]. cbn. rewrite app_length, IH by (intros; apply H; now right). rewrite (H x) by now left. reflexivity. Qed.
  Lemma shaped_row a p q i : shaped a p q -> i < p -> length (nth i a []) = q.
  Proof. intros [L H] Hi. apply H, nth_In. lia. Qed.
  Lemma kron_shaped a b p q p' q' : shaped a p q -> shaped b p' q' -> shaped (kron a b) (p * p') (q * q').
  Proof.
    intros [La Ha] [Lb Hb]. unfold kron. split.
    - rewrite (flat_len _ _ p'); [now rewrite La|]. intros x _. now rewrite map_length.
    - intros row Hr. apply in_flat_map in Hr as (ra & Hra & Hr). apply in_map_iff in Hr as (rb & <- & Hrb). rewrite (flat_len _ _ q'); [now rewrite (Ha _ Hra)|].
      intros x _. rewrite map_length. auto.
  Qed.
  Lemma kron_at a b p q p' q' i j i' j' : shaped a p q -> shaped b p' q' -> i < p -> j < q -> i' < p' -> j' < q' ->
    mat_at (kron a b) (i * p' + i') (j * q' + j') = smul (mat_at a i j) (mat_at b i' j').
  Proof.
    intros Sa Sb Hi Hj Hi' Hj'. unfold mat_at, kron. pose proof Sa as [La Ha]. pose proof Sb as [Lb Hb].
    rewrite (flat_nth _ _ p' i i' [] []); [|intros; now rewrite map_length|lia|lia].
    set (F := fun rb => flat_map (fun x => map (fun y => smul x y) rb) (nth i a [])).
    rewrite (nth_map_lt F _ _ []) by lia. unfold F.
    rewrite (flat_nth _ _ q' j j' s0 s0); [|intros; rewrite map_length; apply (shaped_row b p' q'); auto | rewrite (shaped_row a p q); auto | exact Hj'].
    rewrite (nth_map_lt _ _ _ s0) by (rewrite (shaped_row b p' q'); auto). reflexivity.
  Qed.
  Fixpoint bprod {A} (l : list A) (g : A -> K) : K := match l with [] => s1 | x :: r => smul (g x) (bprod r g) end.
  Lemma bprod_app {A} (l l' : list A) g : bprod (l ++ l') g = smul (bprod l g) (bprod l' g).
  Proof. induction l; cbn; [ring|]. rewrite IHl. ring. Qed.
  Lemma sel_app l a b : sel l (a ++ b) = sel l a ++ sel l b.
  Proof. apply map_app. Qed.
  Lemma colmajor_app d1 : forall d2 x1 x2, length x1 = length d1 -> colmajor (d1 ++ d2) (x1 ++ x2) = colmajor d1 x1 + prodN d1 * colmajor d2 x2.
  Proof. induction d1 as [|d d1 IH]; intros d2 [|x x1] x2 L; try discriminate; cbn; [lia|]. rewrite IH by (cbn in L; lia). ring. Qed.
  Lemma spec_matrix (ov : nat -> list (list K)) (cb ck : list nat) fac : length cb = length ck -> (forall f, f < length cb -> shaped (ov f) (nth f cb 0) (nth f ck 0)) ->
    forall l, (forall f, In f l -> f < length cb) ->
    let o := fold_left (fun o f => kron (ov f) o) l [[fac]] in
    shaped o (prodN (sel cb l)) (prodN (sel ck l)) /\
    forall e e', in_range cb e -> in_range ck e' -> mat_at o (pack cb l e) (pack ck l e') = smul fac (bprod l (fun f => mat_at (ov f) (nth f e 0) (nth f e' 0))).
  Proof.
    intros Lc Hs l. induction l as [|f l IH] using rev_ind; intros Hl.
    - split; [split; [reflexivity|intros row [<-|[]]; reflexivity]|]. intros e e' _ _. cbn. ring.
    - destruct IH as [S1 H1]; [intros; apply Hl, in_or_app; auto|]. rewrite fold_left_app. cbn [fold_left]. set (o := fold_left (fun o f => kron (ov f) o) l [[fac]]) in *.
      assert (Hf : f < length cb) by (apply Hl, in_or_app; cbn; auto). pose proof (Hs f Hf) as S2. split.
      + rewrite !sel_app, !prodN_app. cbn [sel map prodN]. rewrite !Nat.mul_1_r, (Nat.mul_comm (prodN (sel cb l))), (Nat.mul_comm (prodN (sel ck l))). now apply kron_shaped.
      + intros e e' R R'. pose proof R as R0. pose proof R' as R0'. apply in_range_nth in R0 as [Le He], R0' as [Le' He'].
        assert (P1 : pack cb (l ++ [f]) e = nth f e 0 * prodN (sel cb l) + pack cb l e).
        { unfold pack. rewrite !sel_app, colmajor_app by (unfold sel; now rewrite !map_length). cbn. lia. }
        assert (P2 : pack ck (l ++ [f]) e' = nth f e' 0 * prodN (sel ck l) + pack ck l e').
        { unfold pack. rewrite !sel_app, colmajor_app by (unfold sel; now rewrite !map_length). cbn. lia. }
        rewrite P1, P2. rewrite (kron_at _ _ _ _ _ _ _ _ _ _ S2 S1); [|apply He; lia | apply He'; lia | apply pack_lt; auto; intros; apply Hl, in_or_app; auto | apply pack_lt; auto; intros; rewrite <- Lc; apply Hl, in_or_app; auto].
        rewrite H1 by auto. rewrite bprod_app. cbn [bprod]. ring.
  Qed.
End Kron.
