(** Matrix elements do not depend on whether the spin-up or the spin-down orbitals come first. *)
From Coq Require Import List Bool Arith NArith ZArith Reals Lia Sorting.Permutation.
From Verif Require Import Base Star FockSpec FockFacts FockOps ProdFock PermFock LprodSpec LasFock DetModel DetFacts HalfSpec HalfFacts CrunchModel CrunchSpec LsisUpdModel SmultSpec LadderSpec LadderFock.
Import ListNotations.
Local Open Scope nat_scope.

(** a product of operators when the spin-up orbitals come first *)
Definition sops (n : nat) (ops : list opr) (v : vec Rs) : vec Rs :=
  fold_right (fun x w => let '(k, (_, dn, l)) := x in field Rs (2 * n) (so n dn l) k w) v ops.

Section Bridge.
  Variable n : nat.
  Definition pos_a (q : nat) : nat := if q <? n then q + n else q - n.
  Notation lab := (seq 0 (2 * n)).
  Notation ide := (fun q : nat => q).
  Lemma P_b : Permutation (map ide lab) lab.
  Proof. rewrite map_id. reflexivity. Qed.
  Lemma P_a : Permutation (map pos_a lab) lab.
  Proof.
    apply NoDup_Permutation_bis.
    - apply map_nodup_in; [apply seq_NoDup|]. intros x y Hx Hy. apply in_seq in Hx, Hy. unfold pos_a. destruct (Nat.ltb_spec x n), (Nat.ltb_spec y n); lia.
    - rewrite map_length. lia.
    - intros q Hq. apply in_map_iff in Hq as (x & <- & Hx). apply in_seq in Hx. apply in_seq. unfold pos_a. destruct (Nat.ltb_spec x n); lia.
  Qed.
  Notation ren := (renum nat lab pos_a ide Rs).
  Notation cnv := (conv nat lab pos_a ide).
  Lemma bt_cnv d q : q < 2 * n -> bt (cnv d) (pos_a q) = bt d q.
  Proof. intros H. apply (bt_conv nat lab pos_a ide (2 * n) P_a). apply in_seq. lia. Qed.
  Lemma inv_occ d : inv nat lab pos_a ide d = Nat.odd (count (bits d 0 n)) && Nat.odd (count (bits d n n)).
  Proof.
    unfold inv. replace (2 * n) with (n + n) by lia. rewrite seq_app, parity_app. cbn [Nat.add].
    assert (C : forall from, Nat.odd (count (bits d from n)) = parity (bt d) (seq from n)) by (intros from; rewrite count_bits, odd_count; reflexivity). rewrite !C.
    rewrite (parity_false _ (seq 0 n)).
    - rewrite xorb_false_l. rewrite <- parity_and. apply parity_ext. intros x Hx. apply in_seq in Hx. rewrite andb_comm. f_equal. rewrite parity_app, (parity_false _ (seq n n)).
      + rewrite xorb_false_r. apply parity_ext. intros y Hy. apply in_seq in Hy. unfold inverted, pos_a. destruct (Nat.ltb_spec x n); [lia|]. destruct (Nat.ltb_spec y n); [|lia].
        destruct (Nat.ltb_spec (x - n) (y + n)); [|lia]. destruct (Nat.ltb_spec y x); [|lia]. reflexivity.
      + intros y Hy. apply in_seq in Hy. unfold inverted, pos_a. destruct (Nat.ltb_spec x n); [lia|]. destruct (Nat.ltb_spec y n); [lia|].
        destruct (Nat.ltb_spec (x - n) (y - n)), (Nat.ltb_spec y x); try lia; reflexivity.
    - intros x Hx. apply in_seq in Hx. rewrite parity_false; [apply andb_false_r|]. intros y Hy. unfold inverted, pos_a. destruct (Nat.ltb_spec x n); [|lia].
      destruct (Nat.ltb_spec y n); [destruct (Nat.ltb_spec (x + n) (y + n)), (Nat.ltb_spec y x)|destruct (Nat.ltb_spec (x + n) (y - n)), (Nat.ltb_spec y x)]; try reflexivity; try lia.
  Qed.
  Lemma ci_ren ne (c : nat -> nat -> R) d : ren (civec n ne (c : DetModel.mat Rs)) d = ci_state n ne c d.
  Proof.
    unfold renum, civec, ci_state. rewrite inv_occ.
    assert (Ba : bits (cnv d) n n = bits d 0 n) by (apply bits_ext; intros k Hk; cbn [Nat.add]; rewrite <- (bt_cnv d k) by lia; f_equal; unfold pos_a; destruct (Nat.ltb_spec k n); lia).
    assert (Bb : bits (cnv d) 0 n = bits d n n) by (apply bits_ext; intros k Hk; cbn [Nat.add]; rewrite <- (bt_cnv d (n + k)) by lia; f_equal; unfold pos_a; destruct (Nat.ltb_spec (n + k) n); lia).
    rewrite Ba, Bb. destruct (Nat.eqb_spec (count (bits d 0 n)) (fst ne)) as [E1|E1]; [|apply sg_0]. destruct (Nat.eqb_spec (count (bits d n n)) (snd ne)) as [E2|E2]; [|apply sg_0].
    rewrite E1, E2. reflexivity.
  Qed.
  Definition okl (x : opr) : Prop := snd (snd x) < n.
  Lemma so_lt dn l : l < n -> so n dn l < 2 * n.
  Proof. unfold so. destruct dn; lia. Qed.
  Lemma sops_ext ops (u w : vec Rs) : Forall okl ops -> veq Rs (2 * n) u w -> veq Rs (2 * n) (sops n ops u) (sops n ops w).
  Proof. intros F E. induction F as [|[k [[f dn] l]] ops Ho F IH]; [exact E|]. cbn [sops fold_right]. apply (fld_ext Rs k); [apply so_lt; exact Ho|exact IH]. Qed.
  Lemma ren_ops ops w : Forall okl ops -> veq Rs (2 * n) (ren (lops Rs (fun _ => n) ops w)) (sops n ops (ren w)).
  Proof.
    induction 1 as [|[k [[f dn] l]] ops Ho F IH]; [intros d _; reflexivity|]. intros d Hd. cbn [lops sops fold_right]. unfold okl in Ho. cbn [snd] in Ho.
    assert (E : lorb (fun _ => n) f dn l = pos_a (so n dn l)) by (unfold lorb, pos_a, so; destruct dn; [destruct (Nat.ltb_spec (l + n) n)|destruct (Nat.ltb_spec l n)]; lia). rewrite E.
    change (ren (fld Rs k (2 * n) (pos_a (so n dn l)) (lops Rs (fun _ => n) ops w)) d = fld Rs k (2 * n) (so n dn l) (sops n ops (ren w)) d).
    rewrite (renum_fld nat Nat.eq_dec lab pos_a ide (2 * n) P_a P_b) by (auto; apply in_seq; pose proof (so_lt dn l Ho); lia).
    apply (fld_ext Rs k); [apply so_lt; exact Ho|exact IH|exact Hd].
  Qed.
  Lemma bridge nb nk (bra ket : nat -> nat -> R) ops : Forall okl ops ->
    melem2 n nb nk (bra : DetModel.mat Rs) ket ops = inner Rs (2 * n) (ci_state n nb bra) (sops n ops (ci_state n nk ket)).
  Proof.
    intros F. unfold melem2. rewrite <- (renum_inner nat lab pos_a ide (2 * n) P_a P_b). apply inner_ext; [intros d _; apply ci_ren|].
    intros d Hd. rewrite (ren_ops ops _ F d Hd). apply sops_ext; [exact F| |exact Hd]. intros e _. apply ci_ren.
  Qed.
End Bridge.
