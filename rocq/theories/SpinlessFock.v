(** A fragment in the spinless representation: spin-up orbitals below spin-down orbitals, all of them above 2n empty orbitals. *)
From Coq Require Import List NArith Arith Bool Lia Ring Sorting.Permutation Btauto.
From Verif Require Import Base Star FockSpec FockFacts FockOps ProdFock PermFock LprodSpec LasFock LasElem DetModel DetFacts DetSpinless HalfSpec HalfFacts SpinlessModel PropDet.
Import ListNotations.
Local Open Scope nat_scope.

Section Loc.
Variables (K : star_ring) (n : nat).
Add Ring Kr : (sring K).
Definition lbl : Type := bool * nat.
Definition lbl_dec (x y : lbl) : {x = y} + {x <> y}.
Proof. decide equality; [apply Nat.eq_dec|apply bool_dec]. Defined.
Definition lbls : list lbl := map (pair true) (seq 0 n) ++ map (pair false) (seq 0 n).
Definition na (x : lbl) : nat := (if fst x then 0 else n) + snd x.
Definition nb (x : lbl) : nat := (if fst x then n else 0) + snd x.
Lemma in_lbls x : In x lbls <-> snd x < n.
Proof.
  destruct x as [s l]. unfold lbls. rewrite in_app_iff, !in_map_iff. cbn [snd]. split.
  - intros [(k & [= <- <-] & H)|(k & [= <- <-] & H)]; apply in_seq in H; lia.
  - intros H. destruct s; [left|right]; exists l; (split; [reflexivity|apply in_seq; lia]).
Qed.
Lemma Pna : Permutation (map na lbls) (seq 0 (2 * n)).
Proof.
  unfold lbls. rewrite map_app, !map_map. cbn [na fst snd]. replace (2 * n) with (n + n) by lia. rewrite seq_app. cbn [Nat.add]. apply Permutation_app.
  - rewrite map_id. reflexivity.
  - rewrite (seq_off n n). reflexivity.
Qed.
Lemma Pnb : Permutation (map nb lbls) (seq 0 (2 * n)).
Proof.
  unfold lbls. rewrite map_app, !map_map. cbn [nb fst snd]. replace (2 * n) with (n + n) by lia. rewrite seq_app. cbn [Nat.add]. rewrite Permutation_app_comm. apply Permutation_app.
  - rewrite map_id. reflexivity.
  - rewrite (seq_off n n). reflexivity.
Qed.
Notation ren := (renum lbl lbls na nb K).
Notation cnv := (conv lbl lbls na nb).
Definition spl (w : vec K) : vec K := fun d => if N.eqb (lo (2 * n) d) 0 then ren w (hi (2 * n) d) else s0.
Lemma spl_fld k x (w : vec K) d : In x lbls -> (d < 2 ^ N.of_nat (2 * n + 2 * n))%N -> fld K k (2 * n + 2 * n) (2 * n + nb x) (spl w) d = spl (fld K k (2 * n) (na x) w) d.
Proof.
  intros Hx Hd. unfold spl at 2. rewrite (renum_fld lbl lbl_dec lbls na nb (2 * n) Pna Pnb K k x w _ Hx (hi_lt _ _ _ Hd)).
  unfold fld, spl. destruct k; unfold cre, ann; rewrite above_hi, bt_hi.
  - rewrite lo_cb', hi_cb'. destruct (bt d (2 * n + nb x)); destruct (N.eqb _ 0); rewrite ?sg_0; reflexivity.
  - rewrite lo_sb', hi_sb'. destruct (bt d (2 * n + nb x)); destruct (N.eqb _ 0); rewrite ?sg_0; reflexivity.
Qed.
Lemma inner_vac m : inner K m (fun d => if N.eqb d 0 then s1 else s0) (fun d => if N.eqb d 0 then s1 else s0) = s1.
Proof.
  unfold inner, dets. destruct (2 ^ m) as [|k] eqn:E; [exfalso; exact (Nat.pow_nonzero 2 m ltac:(lia) E)|]. cbn [seq map bsum fold_right N.of_nat N.eqb].
  rewrite bsum_0; [rewrite conj_one; ring|]. intros d Hd. apply in_map_iff in Hd as (i & <- & Hi). apply in_seq in Hi. destruct (N.eqb_spec (N.of_nat i) 0); [lia|]. ring.
Qed.
Lemma spl_inner (u v : vec K) : inner K (2 * n + 2 * n) (spl u) (spl v) = inner K (2 * n) u v.
Proof.
  set (z := fun d : N => if N.eqb d 0 then @s1 K else s0).
  assert (S : forall w d, spl w d = smul (z (lo (2 * n) d)) (ren w (hi (2 * n) d))) by (intros w d; unfold spl, z; destruct (N.eqb _ 0); ring).
  rewrite (inner_ext K _ _ (fun d => smul (z (lo (2 * n) d)) (ren u (hi (2 * n) d))) _ (fun d => smul (z (lo (2 * n) d)) (ren v (hi (2 * n) d)))) by (intros d _; apply S).
  rewrite inner_prod_cons. unfold z. rewrite inner_vac. rewrite (renum_inner lbl lbls na nb (2 * n) Pna Pnb K). ring.
Qed.

Lemma inv_spl e : inv lbl lbls na nb e = Nat.odd (DetModel.count (bits e 0 n)) && Nat.odd (DetModel.count (bits e n n)).
Proof.
  rewrite !count_bits, !odd_count. unfold inv.
  assert (I : forall x y, In x lbls -> In y lbls -> inverted lbl na nb x y = fst x && negb (fst y)).
  { intros [s l] [t k] Hx Hy. apply in_lbls in Hx, Hy. cbn [snd] in *. unfold inverted, na, nb. cbn [fst snd].
    destruct s, t; cbn [andb negb]; repeat match goal with |- context [Nat.ltb ?p ?q] => destruct (Nat.ltb_spec p q); try lia end; reflexivity. }
  assert (Q : parity (fun y : lbl => negb (fst y) && bt e (nb y)) lbls = parity (bt e) (seq 0 n)).
  { unfold lbls. rewrite parity_app, !parity_map. cbn [fst negb andb]. rewrite (parity_false (fun _ => false)) by reflexivity. rewrite xorb_false_l. apply parity_ext. intros q _. reflexivity. }
  assert (E : forall x, In x lbls -> bt e (nb x) && parity (fun y => inverted lbl na nb x y && bt e (nb y)) lbls = (fst x && bt e (nb x)) && parity (bt e) (seq 0 n)).
  { intros x Hx. rewrite (parity_ext (fun y => inverted lbl na nb x y && bt e (nb y)) (fun y => fst x && (negb (fst y) && bt e (nb y)))) by (intros y Hy; rewrite I by assumption; btauto).
    rewrite parity_and, Q. btauto. }
  rewrite (parity_ext _ _ _ E). rewrite (parity_ext _ (fun x => parity (bt e) (seq 0 n) && (fst x && bt e (nb x)))) by (intros; btauto). rewrite parity_and. f_equal.
  unfold lbls. rewrite parity_app, !parity_map. cbn [fst andb]. rewrite (parity_false (fun _ => false)) by reflexivity. rewrite xorb_false_r. rewrite (seq_off n n), parity_map. apply parity_ext. intros q _. reflexivity.
Qed.
Lemma count_zero (e : N) m : (e < 2 ^ N.of_nat m)%N -> (DetModel.count (bits e 0 m) =? 0) = N.eqb e 0.
Proof.
  intros He. destruct (N.eqb_spec e 0) as [->|Ne].
  - apply Nat.eqb_eq. unfold bits. induction (seq 0 m) as [|a l IH]; [reflexivity|]. cbn [map DetModel.count]. rewrite IH, bt_0. reflexivity.
  - apply Nat.eqb_neq. intros C. apply Ne. apply bt_ext. intros q. rewrite bt_0. destruct (le_lt_dec m q) as [H|H]; [now apply (bt_high e m)|].
    unfold bits in C. assert (G : forall l, In q l -> DetModel.count (map (fun k => bt e (0 + k)) l) = 0 -> bt e q = false).
    { induction l as [|a l IH]; intros I Z; [destruct I|]. cbn [map DetModel.count Nat.add] in Z. destruct I as [->|I]; [destruct (bt e q); [lia|reflexivity]|apply IH; [exact I|cbn [Nat.add]; lia]]. }
    apply (G (seq 0 m)); [apply in_seq; lia|exact C].
Qed.
Lemma bits_split e : bits e 0 (2 * n) = bits e 0 n ++ bits e n n.
Proof. unfold bits. replace (2 * n) with (n + n) by lia. rewrite seq_app, map_app. f_equal. cbn [Nat.add]. rewrite (seq_off n n), map_map. reflexivity. Qed.
Lemma odd_spins_and (ne : nat * nat) : odd_spins ne = Nat.odd (fst ne) && Nat.odd (snd ne).
Proof. unfold odd_spins. rewrite <- Nat.odd_mul. rewrite <- Nat.bit0_mod, Nat.bit0_odd. destruct (Nat.odd _); reflexivity. Qed.
Lemma spl_civec ne (c : mat K) d : (d < 2 ^ N.of_nat (2 * n + 2 * n))%N -> civec (2 * n) (spinless_ne ne) (spinless_mat n ne c) d = spl (civec n ne c) d.
Proof.
  intros Hd. destruct ne as [ea eb]. unfold civec at 1, spl, spinless_ne, spinless_mat. cbn [fst snd]. set (e := hi (2 * n) d).
  replace (bits d (2 * n) (2 * n)) with (bits e 0 (2 * n)) by (apply bits_ext; intros k Hk; unfold e; rewrite bt_hi; reflexivity).
  replace (bits d 0 (2 * n)) with (bits (lo (2 * n) d) 0 (2 * n)) by (apply bits_ext; intros k Hk; rewrite bt_lo; cbn [Nat.add]; destruct (Nat.ltb_spec k (2 * n)); [reflexivity|lia]).
  rewrite (count_zero (lo (2 * n) d)) by apply lo_lt. rewrite andb_comm. destruct (N.eqb (lo (2 * n) d) 0); cbn [andb]; [|reflexivity].
  unfold renum. assert (B0 : bits (cnv e) 0 n = bits e n n).
  { apply bits_ext. intros k Hk. cbn [Nat.add]. exact (bt_conv lbl lbls na nb (2 * n) Pna e (true, k) (proj2 (in_lbls (true, k)) Hk)). }
  assert (B1 : bits (cnv e) n n = bits e 0 n).
  { apply bits_ext. intros k Hk. exact (bt_conv lbl lbls na nb (2 * n) Pna e (false, k) (proj2 (in_lbls (false, k)) Hk)). }
  unfold civec. cbn [fst snd]. rewrite B0, B1, bits_split, count_app, inv_spl. set (s := bits e 0 n). set (t := bits e n n).
  assert (Ls : length s = n) by apply bits_length. assert (Lt : length t = n) by apply bits_length.
  destruct (Nat.eqb_spec (DetModel.count s + DetModel.count t) (ea + eb)) as [E|E].
  - rewrite (C23_amplitudes K n ea eb c s t Ls Lt E). destruct (Nat.eqb_spec (DetModel.count s) ea) as [Ea|Ea]; cbn [andb].
    + assert (Eb : DetModel.count t = eb) by lia. rewrite Ea, Eb, Nat.eqb_refl. rewrite odd_spins_and. cbn [fst snd]. reflexivity.
    + rewrite sg_0. reflexivity.
  - destruct (Nat.eqb_spec (DetModel.count s) ea), (Nat.eqb_spec (DetModel.count t) eb); cbn [andb]; rewrite ?sg_0; try reflexivity. lia.
Qed.
End Loc.
