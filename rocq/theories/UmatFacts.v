(** Facts about UmatModel: what a rotation does to the element of a product state. *)
From Coq Require Import List Bool Arith Lia Ring.
From Verif Require Import Base BaseFacts Star AddrModel AddrFacts AddrSpec AddrProofs OvlpFacts UmatModel.
Import ListNotations.
Local Open Scope nat_scope.

(** the list with its f-th element replaced *)
Definition put (f a : nat) (e : list nat) : list nat := upd f (fun _ => a) e.
Lemma put_len f a e : length (put f a e) = length e.
Proof. apply upd_length. Qed.
Lemma put_nth f a : forall e g, f < length e -> nth g (put f a e) 0 = if g =? f then a else nth g e 0.
Proof.
  unfold put. induction f as [|f IH]; intros [|x e] g H; cbn [length] in H; try lia; cbn [upd].
  - destruct g; reflexivity.
  - destruct g; cbn [nth]; [reflexivity|]. rewrite IH by lia. reflexivity.
Qed.
Lemma put_range dims : forall f a e, in_range dims e -> a < nth f dims 0 -> in_range dims (put f a e).
Proof.
  intros f a e H. revert f. unfold put. induction H as [|d x ds xs Hx H IH]; intros f Ha; [destruct f; constructor|].
  destruct f; cbn [upd nth] in *; constructor; auto. now apply IH.
Qed.

(** the position of a product state: above, at and below one fragment *)
Lemma colmajor_split dims : forall f e, in_range dims e -> f < length dims ->
  exists low high, low < prodN (firstn f dims) /\ forall a, colmajor dims (put f a e) = (high * nth f dims 0 + a) * prodN (firstn f dims) + low.
Proof.
  intros f e H. revert f. unfold put. induction H as [|d x ds xs Hx H IH]; intros f Hf; cbn [length] in Hf; [lia|]. destruct f as [|f].
  - exists 0, (colmajor ds xs). cbn [firstn prodN nth upd colmajor]. split; [lia|]. intros a. lia.
  - destruct (IH f ltac:(lia)) as (low & high & Hl & E). exists (x + d * low), high. cbn [firstn prodN nth upd colmajor]. split; [nia|]. intros a. rewrite E. lia.
Qed.
Lemma put_same f e : f < length e -> put f (nth f e 0) e = e.
Proof. unfold put. revert e. induction f as [|f IH]; intros [|x e] H; cbn [length] in H; try lia; cbn [upd nth]; [reflexivity|]. now rewrite IH by lia. Qed.
Lemma tail_rev (dims : list nat) f : f < length dims -> prodN (skipn (length dims - f - 1) (rev dims)) = prodN (firstn f dims) * nth f dims 0.
Proof.
  intros H. assert (E : skipn (length dims - f - 1) (rev dims) = rev (firstn (S f) dims)).
  { rewrite <- (firstn_skipn (S f) dims) at 2. rewrite rev_app_distr. replace (length dims - f - 1) with (length (rev (skipn (S f) dims))) by (rewrite rev_length, skipn_length; lia).
    rewrite skipn_app, skipn_all, Nat.sub_diag. reflexivity. }
  rewrite E. assert (R : forall l : list nat, prodN (rev l) = prodN l).
  { assert (A : forall l l', prodN (l ++ l') = prodN l * prodN l') by (induction l as [|y l IH]; intros l'; cbn; [lia|rewrite IH; lia]). induction l as [|y l IH]; cbn; [reflexivity|]. rewrite A, IH. cbn. lia. }
  rewrite R. clear E R. revert f H. induction dims as [|d ds IH]; intros f H; cbn [length] in H; [lia|]. destruct f; cbn [firstn prodN nth]; [lia|].
  rewrite <- Nat.mul_assoc, <- (IH f ltac:(lia)). reflexivity.
Qed.
Lemma offs_at lr r : r <= length (hd [] lr) -> nth r (0 :: cumsum (map (fun r => prodN (column lr r)) (seq 0 (length (hd [] lr))))) 0 = states_before lr r.
Proof.
  intros H. rewrite (states_before_off lr (length (hd [] lr))) by exact H. destruct r as [|r]; [reflexivity|]. cbn [nth]. unfold cumsum. rewrite nth_cumsum_from by (rewrite map_length, seq_length; lia). reflexivity.
Qed.

Section Facts.
  Context {K : star_ring}.
  Add Ring Kring : (sring K).
  (** square of a given size *)
  Definition square (n : nat) (u : list (list K)) : Prop := length u = n /\ Forall (fun row => length row = n) u.
  Lemma hd_square n u : 0 < n -> square n u -> length (hd [] u) = n.
  Proof. intros Hn [L F]. destruct u as [|row u]; cbn [length] in L; [lia|]. now inversion F. Qed.

  (** a block: the trailing axes are carried along, one fragment index is contracted with the rows of the matrix *)
  Lemma block_at dims f u rest (F : nat -> K) : f < length dims -> 0 < nth f dims 0 -> square (nth f dims 0) u -> 0 < rest ->
    exists G, dot_block dims f u rest F = Ok G /\
      forall e x, in_range dims e -> x < rest -> G (colmajor dims e * rest + x) = bsum (seq 0 (nth f dims 0)) (fun a => smul (entry u a (nth f e 0)) (F (colmajor dims (put f a e) * rest + x))).
  Proof.
    intros Hf Hd Hs Hr. unfold dot_block. rewrite (proj1 Hs), Nat.eqb_refl. cbn [py_assert]. rewrite (hd_square _ u Hd Hs), Nat.eqb_refl. eexists. split; [reflexivity|].
    intros e x R Hx. cbn zeta. rewrite tail_rev by exact Hf. set (d := nth f dims 0) in *. set (w := prodN (firstn f dims)).
    replace (w * d * rest / d) with (w * rest) by (symmetry; replace (w * d * rest) with (w * rest * d) by lia; apply Nat.div_mul; lia).
    assert (Le : length e = length dims) by exact (in_range_length _ _ R).
    destruct (colmajor_split dims f e R Hf) as (low & high & Hl & E). fold d w in E. fold w in Hl.
    assert (Hc : nth f e 0 < d). { unfold d. clear - R Hf. revert f Hf. induction R as [|d x ds xs Hx R IH]; intros f Hf; cbn [length] in Hf; [lia|]. destruct f; cbn [nth]; [exact Hx|]. apply IH. lia. }
    set (c := nth f e 0) in *. set (st := low * rest + x). assert (Hst : st < w * rest) by (unfold st; nia).
    assert (Ep : colmajor dims e * rest + x = (high * d + c) * (w * rest) + st).
    { rewrite <- (put_same f e) at 1 by lia. fold c. rewrite E. unfold st. lia. }
    assert (E1 : (colmajor dims e * rest + x) / (d * (w * rest)) = high).
    { rewrite Ep. symmetry. apply (Nat.div_unique _ _ high (c * (w * rest) + st)); nia. }
    assert (E2 : (colmajor dims e * rest + x) / (w * rest) mod d = c).
    { rewrite Ep. rewrite Nat.div_add_l, (Nat.div_small st) by lia. rewrite Nat.add_0_r, Nat.add_comm, Nat.mod_add by lia. now apply Nat.mod_small. }
    assert (E3 : (colmajor dims e * rest + x) mod (w * rest) = st).
    { rewrite Ep. rewrite Nat.add_comm, Nat.mod_add by lia. now apply Nat.mod_small. }
    rewrite E1, E2, E3. apply bsum_ext. intros a _. f_equal. f_equal. rewrite E. unfold st. lia.
  Qed.

  Variable lr : list (list nat).
  Let m := length (hd [] lr).
  Let adr r e := states_before lr r + colmajor (dims_of lr r) e.
  Lemma adr_block r e : in_range (dims_of lr r) e -> states_before lr r <= adr r e < states_before lr (S r).
  Proof. intros R. unfold adr. rewrite states_S. pose proof (colmajor_lt _ _ R). change (column lr r) with (dims_of lr r). lia. Qed.
  Lemma dot_at f r0 u rest (t : nat -> nat -> K) : r0 < m -> f < length lr -> 0 < nth f (dims_of lr r0) 0 -> square (nth f (dims_of lr r0) 0) u -> 0 < rest ->
    exists t', umat_dot lr f r0 u rest t = Ok t' /\
      forall r e x, r < m -> in_range (dims_of lr r) e -> x < rest ->
        t' (adr r e) x = if r =? r0 then bsum (seq 0 (nth f (dims_of lr r0) 0)) (fun a => smul (entry u a (nth f e 0)) (t (adr r (put f a e)) x)) else t (adr r e) x.
  Proof.
    intros Hr Hf Hd Hs Hx. unfold umat_dot. fold m. rewrite (proj2 (Nat.leb_gt _ _)) by lia. cbn zeta.
    assert (O1 := offs_at lr r0 ltac:(fold m; lia)). assert (O2 := offs_at lr (S r0) ltac:(fold m; lia)). fold m in O1, O2. rewrite O1, O2.
    assert (Ld : f < length (column lr r0)) by (unfold column; rewrite map_length; exact Hf).
    destruct (block_at (column lr r0) f u rest (fun p => t (states_before lr r0 + p / rest) (p mod rest)) Ld Hd Hs Hx) as (G & EG & VG). rewrite EG. cbn [bind]. eexists. split; [reflexivity|].
    intros r e x Lr R Lx. pose proof (adr_block r e R) as A. destruct (Nat.eqb_spec r r0) as [->|N].
    - rewrite (proj2 (Nat.leb_le _ _)), (proj2 (Nat.ltb_lt _ _)) by lia. cbn [andb]. unfold adr at 1. replace (states_before lr r0 + colmajor (dims_of lr r0) e - states_before lr r0) with (colmajor (column lr r0) e) by (change (column lr r0) with (dims_of lr r0); lia).
      rewrite (VG e x R Lx). apply bsum_ext. intros a Ia. f_equal. unfold adr. change (dims_of lr r0) with (column lr r0). rewrite Nat.div_add_l, (Nat.div_small x), Nat.add_0_r by lia. f_equal. rewrite Nat.add_comm, Nat.mod_add by lia. now apply Nat.mod_small.
    - destruct ((states_before lr r0 <=? adr r e) && (adr r e <? states_before lr (S r0))) eqn:B; [|reflexivity]. exfalso. apply N. apply andb_true_iff in B as [B1 B2]. apply Nat.leb_le in B1. apply Nat.ltb_lt in B2. exact (states_sep lr r r0 (adr r e) A (conj B1 B2)).
  Qed.
  Variable n size : nat.
  Hypothesis Hn : states_before lr m = n.
  Hypothesis Hsize : 0 < size.
  Lemma adr_lt r e : r < m -> in_range (dims_of lr r) e -> adr r e < n.
  Proof. intros Hr R. pose proof (adr_block r e R). pose proof (states_mono lr (S r) m Hr). lia. Qed.
  Lemma split_at B x : x < size -> (B * size + x) / size = B /\ (B * size + x) mod size = x.
  Proof. intros Hx. split; [rewrite Nat.div_add_l, Nat.div_small by lia; lia|rewrite Nat.add_comm, Nat.mod_add by lia; now apply Nat.mod_small]. Qed.
  Lemma axes_at f r0 u (T : nat -> nat -> nat -> K) : r0 < m -> f < length lr -> 0 < nth f (dims_of lr r0) 0 -> square (nth f (dims_of lr r0) 0) u -> 0 < n ->
    exists T1 T2, umat_axis0 lr f r0 u n size T = Ok T1 /\ umat_axis1 lr f r0 u n size T1 = Ok T2 /\
      forall r e r' e' x, r < m -> r' < m -> in_range (dims_of lr r) e -> in_range (dims_of lr r') e' -> x < size ->
        let S1 B := if r =? r0 then bsum (seq 0 (nth f (dims_of lr r0) 0)) (fun a => smul (entry u a (nth f e 0)) (T (adr r (put f a e)) B x)) else T (adr r e) B x in
        T2 (adr r e) (adr r' e') x = if r' =? r0 then bsum (seq 0 (nth f (dims_of lr r0) 0)) (fun a => smul (entry u a (nth f e' 0)) (S1 (adr r' (put f a e')))) else S1 (adr r' e').
  Proof.
    intros Hr Hf Hd Hs H0. assert (Hns : 0 < n * size) by nia. unfold umat_axis0, umat_axis1.
    destruct (dot_at f r0 u (n * size) (fun A y => T A (y / size) (y mod size)) Hr Hf Hd Hs Hns) as (t1 & E1 & V1). rewrite E1. cbn [bind].
    destruct (dot_at f r0 u (n * size) (fun B y => t1 (y / size) (B * size + y mod size)) Hr Hf Hd Hs Hns) as (t2 & E2 & V2).
    eexists. eexists. split; [reflexivity|]. cbn beta. rewrite E2. cbn [bind]. split; [reflexivity|].
    intros r e r' e' x Lr Lr' R R' Lx. cbn zeta beta.
    assert (W : forall q d, q < m -> in_range (dims_of lr q) d -> t1 (adr r e) (adr q d * size + x) =
      if r =? r0 then bsum (seq 0 (nth f (dims_of lr r0) 0)) (fun a => smul (entry u a (nth f e 0)) (T (adr r (put f a e)) (adr q d) x)) else T (adr r e) (adr q d) x).
    { intros q d Lq Rd. pose proof (adr_lt q d Lq Rd). destruct (split_at (adr q d) x Lx) as [X1 X2]. rewrite V1 by (first [assumption|nia]). rewrite X1, X2. reflexivity. }
    pose proof (adr_lt r e Lr R). destruct (split_at (adr r e) x Lx) as [X1 X2]. rewrite V2 by (first [assumption|nia]). rewrite X1, X2. destruct (Nat.eqb_spec r' r0) as [->|].
    - apply bsum_ext. intros a Ia. apply in_seq in Ia. f_equal. apply W; [exact Hr|]. apply put_range; [exact R'|lia].
    - now apply W.
  Qed.
End Facts.
