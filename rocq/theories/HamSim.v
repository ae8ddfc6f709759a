(** The loops over flattened arrays add up the same terms as the loops over pairs of states. *)
From Coq Require Import List ZArith Bool Arith Lia Permutation Sorted.
From Verif Require Import Base Star AddrModel AddrSpec ExcModel UexcModel StdmModel StdmFacts StdmSum HamModel HamLoop HamFlat.
Import ListNotations.
Local Open Scope nat_scope.

Lemma nodup_flat_map {A B} (f : A -> list B) l : NoDup l -> (forall x, In x l -> NoDup (f x)) -> (forall x y z, In x l -> In y l -> In z (f x) -> In z (f y) -> x = y) -> NoDup (flat_map f l).
Proof.
  induction 1 as [|x l Nx N IH]; intros H1 H2; cbn; [constructor|].
  assert (G : forall (a b : list B), NoDup a -> NoDup b -> (forall z, In z a -> In z b -> False) -> NoDup (a ++ b)).
  { clear. induction 1 as [|x a H1 H2 IH]; intros Nb D; cbn; [exact Nb|]. constructor; [|apply IH; auto; intros z Hz; apply D; now right]. rewrite in_app_iff. intros [H|H]; [auto|]. apply (D x); [now left|exact H]. }
  apply G; [apply H1; now left | apply IH; [intros; apply H1; now right | intros y z w Hy Hz; apply H2; now right]|].
  intros z Hz Hy. apply in_flat_map in Hy as (y & Hy & Hzy). assert (x = y) by (apply (H2 x y z); auto; [now left|now right]). subst. contradiction.
Qed.
Lemma nth_list_prod (l l' : list nat) : forall a c, a < length l -> c < length l' -> nth (a * length l' + c) (list_prod l l') (0, 0) = (nth a l 0, nth c l' 0).
Proof.
  induction l as [|x l IH]; intros a c Ha Hc; [cbn in Ha; lia|]. cbn [list_prod]. destruct a as [|a].
  - rewrite app_nth1 by (rewrite map_length; lia). cbn [Nat.mul Nat.add nth]. rewrite (nth_indep _ (0, 0) (x, 0)) by (rewrite map_length; lia). apply (map_nth (fun y => (x, y))).
  - cbn in Ha. rewrite app_nth2; rewrite map_length; [|nia]. replace (S a * length l' + c - length l') with (a * length l' + c) by nia. cbn [nth]. apply IH; lia.
Qed.

Section Sim.
  Context {K : star_ring}.
  Add Ring Kring : (sring K).
  Variables (half : K) (big : K -> bool) (pyset : list nat -> list nat) (lroots : list (list nat)).
  Variables (ovlp : nat -> nat -> nat -> list (list K)) (spin_shuffle : nat -> K) (frag_shuffle : nat -> list nat -> K).
  Variables (ra : list nat) (fa : list (list nat)).
  Variable cr : nat -> list nat -> option nat -> nat * list nat -> nat * list nat -> res (@opval K).
  Let n := length lroots.
  Let nroots := length (hd [] lroots).
  Let col r := column lroots r.
  Hypothesis Hne : lroots <> [].
  Hypothesis Hrect : Forall (fun row => length row = nroots) lroots.
  Hypothesis Hget : get_rootaddr_fragaddr lroots = Ok (ra, fa).
  Hypothesis Hpos : forall r f, r < nroots -> f < n -> 0 < nth f (col r) 0.
  Hypothesis Hset : forall l, NoDup (pyset l) /\ forall f, In f (pyset l) <-> In f l.
  Hypothesis Hsort : forall fr, pyset (spectators n fr) = spectators n fr.
  Hypothesis Hov : forall f b k, f < n -> b < nroots -> k < nroots -> shaped (ovlp f b k) (nth f (col b) 0) (nth f (col k) 0).

  Definition some0 (o : option K) : K := match o with Some v => v | None => s0 end.
  (** value of a cruncher: ham at true, s2 at false *)
  Definition Dval (lbl : nat) (fr : list nat) (s : option nat) (bra ket : nat * list nat) (x : bool) : K :=
    match cr lbl fr s bra ket with Ok v => if x then fst v else some0 (snd v) | Raise _ => s0 end.
  Definition sim (hs : @mat K * @mat K) (t : @tdm K bool) : Prop := forall b k, fst hs b k = t b k true /\ snd hs b k = t b k false.
  Notation spec1 := (spec_addr_ovlp_1space half big pyset lroots ovlp spin_shuffle frag_shuffle).
  Notation rng := (get_addr_range pyset lroots).
  Notation pair_address := (pair_address pyset lroots ra fa Hne Hrect Hget Hpos Hset Hsort).
  Notation state_unique := (state_unique lroots Hne Hrect).

  Lemma put_op_sum op (l : list (nat * nat * K)) v b k : NoDup (map fst l) ->
    put_op op l v b k = sadd (op b k) (bsum l (fun e => let '(b', k', w) := e in if (b' =? b) && (k' =? k) then smul v w else s0)).
  Proof.
    intros N. unfold put_op. assert (G : forall l : list (nat * nat * K), NoDup (map fst l) ->
      match find (fun e => (fst (fst e) =? b) && (snd (fst e) =? k)) l with Some e => smul (snd e) v | None => s0 end =
      bsum l (fun e => let '(b', k', w) := e in if (b' =? b) && (k' =? k) then smul v w else s0)).
    { clear. induction l as [|[[b' k'] w] l IH]; intros N; cbn [find bsum map fst snd] in *; [reflexivity|]. inversion N as [|? ? Nx N']; subst.
      destruct ((b' =? b) && (k' =? k)) eqn:E.
      - apply andb_true_iff in E as [E1 E2]. apply Nat.eqb_eq in E1, E2. subst. cbn [snd]. rewrite bsum_0; [ring|]. intros [[b1 k1] w1] Hi.
        destruct (Nat.eqb_spec b1 b) as [->|]; [|reflexivity]. destruct (Nat.eqb_spec k1 k) as [->|]; [|reflexivity]. exfalso. apply Nx. apply (in_map fst) in Hi. exact Hi.
      - rewrite IH by assumption. ring. }
    assert (Nr : NoDup (map fst (rev l))) by (rewrite map_rev; now apply NoDup_rev).
    specialize (G (rev l) Nr). assert (P : bsum (rev l) (fun e => let '(b', k', w) := e in if (b' =? b) && (k' =? k) then smul v w else s0) = bsum l (fun e => let '(b', k', w) := e in if (b' =? b) && (k' =? k) then smul v w else s0)).
    { apply bsum_perm. symmetry. apply Permutation_rev. }
    rewrite <- P, <- G. destruct (find _ _); ring.
  Qed.
  Section Row.
    Variables (lbl : nat) (u : erow) (images : list (nat * nat)).
    Let fr := e_frags u.
    Let rb := e_bra u.
    Let rk := e_ket u.
    Let sp := spectators n fr.
    Hypothesis Hfr : forall f, In f fr -> f < n.
    Hypothesis Hrb : rb < nroots.
    Hypothesis Hrk : rk < nroots.
    Hypothesis Him : NoDup images.
    Hypothesis Hal : forall p, In p images -> fst p < nroots /\ snd p < nroots /\ (forall f, In f fr -> nth f (col rb) 0 = nth f (col (fst p)) 0) /\ (forall f, In f fr -> nth f (col rk) 0 = nth f (col (snd p)) 0).
    Hypothesis Hasc : StronglySorted lt (pyset fr).
    Hypothesis Hinv : forall f, In f (ninv lbl fr) <-> In f fr.
    Hypothesis Hcr : forall m m', in_range (col rb) m -> in_range (col rk) m' -> exists v, cr lbl fr (e_spin u) (rb, zeroed lroots fr m) (rk, zeroed lroots fr m') = Ok v.
    Let cache := map (fun q => (fst q, snd q, spec1 (fst q) (snd q) fr)) images.
    Let na := prodN (sel (col rb) (pyset fr)).
    Let nc := prodN (sel (col rk) (pyset fr)).
    Lemma len_rng r : length (rng r fr) = prodN (sel (col r) (pyset fr)).
    Proof. unfold get_addr_range. now rewrite map_length, seq_length. Qed.

    Lemma cache_keys a c : a < na -> c < nc -> NoDup (map fst (spec_addr_ovlp lroots fa cache (nth a (rng rb fr) 0) (nth c (rng rk fr) 0))).
    Proof.
      intros Ha Hc. set (A := nth a (rng rb fr) 0). set (B := nth c (rng rk fr) 0).
      set (T := fun (p : nat * nat) i j => (nth i (rng (fst p) sp) 0 + dotN (env_at fa A) (strides lroots (fst p)), nth j (rng (snd p) sp) 0 + dotN (env_at fa B) (strides lroots (snd p)))).
      set (nb := fun p : nat * nat => prodN (sel (col (fst p)) sp)). set (nd := fun p : nat * nat => prodN (sel (col (snd p)) sp)).
      assert (Q : exists keep : nat * nat -> nat -> nat -> bool, map fst (spec_addr_ovlp lroots fa cache A B) = flat_map (fun p => flat_map (fun i => flat_map (fun j => if keep p i j then [T p i j] else []) (seq 0 (nd p))) (seq 0 (nb p))) images).
      { exists (fun p i j => let o := fold_left (fun o f => kron (ovlp f (fst p) (snd p)) o) sp [[smul (smul (smul (spin_shuffle (fst p)) (spin_shuffle (snd p))) (frag_shuffle (fst p) (pyset fr))) (frag_shuffle (snd p) (pyset fr))]] in
          big (nth j (nth i o []) s0) && (if fst p =? snd p then j <=? i else true)).
        unfold spec_addr_ovlp, cache. clear Him. revert Hal. induction images as [|p l IH]; intros Hal; [reflexivity|]. cbn [map flat_map]. rewrite map_app, IH by (intros; apply Hal; now right). f_equal.
        destruct (Hal p (or_introl eq_refl)) as (P1 & P2 & P3 & P4). unfold spec_addr_ovlp_1space. rewrite (spec_set pyset lroots Hset fr). fold n. fold sp.
        set (fac := smul (smul (smul (spin_shuffle (fst p)) (spin_shuffle (snd p))) (frag_shuffle (fst p) (pyset fr))) (frag_shuffle (snd p) (pyset fr))).
        set (o := fold_left (fun o f => kron (ovlp f (fst p) (snd p)) o) sp [[fac]]).
        destruct (spec_matrix (fun f => ovlp f (fst p) (snd p)) (col (fst p)) (col (snd p)) fac) with (l := sp) as [So _].
        { unfold col. now rewrite !col_len. }
        { intros f Hf. unfold col in Hf. rewrite col_len in Hf. apply Hov; auto. }
        { intros f Hf. apply in_spec in Hf. unfold col. rewrite col_len. apply Hf. }
        fold o in So. rewrite (proj1 So). fold (nb p). rewrite map_map.
        assert (M : forall (X Y Z : Type) (g : Y -> Z) (f : X -> list Y) l, map g (flat_map f l) = flat_map (fun x => map g (f x)) l) by (clear; intros; induction l as [|x l IH]; cbn; [reflexivity|now rewrite map_app, IH]).
        assert (F : forall (X Y : Type) (f g : X -> list Y) l, (forall x, In x l -> f x = g x) -> flat_map f l = flat_map g l) by (clear; intros X Y f g l H; induction l as [|x l IH]; cbn; [reflexivity|rewrite H by (now left); f_equal; apply IH; intros; apply H; now right]).
        rewrite M. apply F. intros i Hi. apply in_seq in Hi. rewrite M. rewrite (shaped_row o (nb p) (nd p)) by (auto; lia). apply F. intros j _. cbn zeta. unfold T. destruct (_ && _); reflexivity. }
      destruct Q as [keep ->].
      assert (inj : forall p p' i i' j j', In p images -> In p' images -> i < nb p -> i' < nb p' -> j < nd p -> j' < nd p' -> T p i j = T p' i' j' -> p = p' /\ i = i' /\ j = j').
      { intros p p' i i' j j' Hp Hp' Hi Hi' Hj Hj' E. unfold T in E. injection E as E1 E2.
        destruct (Hal p Hp) as (P1 & P2 & P3 & P4). destruct (Hal p' Hp') as (P1' & P2' & P3' & P4').
        destruct (pair_address fr rb (fst p) Hfr Hrb P1 P3 a i Ha Hi) as (m & Rm & M1 & M2 & M3 & _). destruct (pair_address fr rb (fst p') Hfr Hrb P1' P3' a i' Ha Hi') as (m' & Rm' & M1' & M2' & M3' & _).
        destruct (pair_address fr rk (snd p) Hfr Hrk P2 P4 c j Hc Hj) as (w & Rw & W1 & W2 & W3 & _). destruct (pair_address fr rk (snd p') Hfr Hrk P2' P4' c j' Hc Hj') as (w' & Rw' & W1' & W2' & W3' & _).
        fold A in M3, M3'. fold B in W3, W3'. unfold sp in E1, E2. fold n in M3, M3', W3, W3'. rewrite M3, M3' in E1. rewrite W3, W3' in E2.
        destruct (state_unique (fst p) m (fst p') m' P1 P1' Rm Rm' E1) as [F1 F2]. destruct (state_unique (snd p) w (snd p') w' P2 P2' Rw Rw' E2) as [F3 F4].
        assert (p = p') by (rewrite (surjective_pairing p), (surjective_pairing p'); congruence). subst p' m' w'. split; [reflexivity|split; congruence]. }
      apply nodup_flat_map; [exact Him| |].
      - intros p Hp. apply nodup_flat_map; [apply seq_NoDup| |].
        + intros i Hi. apply in_seq in Hi. apply nodup_flat_map; [apply seq_NoDup| |].
          * intros j _. destruct (keep p i j); repeat constructor. cbn. tauto.
          * intros j j' z Hj Hj' Z1 Z2. apply in_seq in Hj, Hj'. destruct (keep p i j); [|destruct Z1]. destruct (keep p i j'); [|destruct Z2]. destruct Z1 as [<-|[]], Z2 as [Z2|[]]. apply inj in Z2; auto; try lia; intuition.
        + intros i i' z Hi Hi' Z1 Z2. apply in_seq in Hi, Hi'. apply in_flat_map in Z1 as (j & Hj & Z1). apply in_flat_map in Z2 as (j' & Hj' & Z2). apply in_seq in Hj, Hj'.
          destruct (keep p i j); [|destruct Z1]. destruct (keep p i' j'); [|destruct Z2]. destruct Z1 as [<-|[]], Z2 as [Z2|[]]. apply inj in Z2; auto; try lia; intuition.
      - intros p p' z Hp Hp' Z1 Z2. apply in_flat_map in Z1 as (i & Hi & Z1). apply in_flat_map in Z2 as (i' & Hi' & Z2). apply in_seq in Hi, Hi'. apply in_flat_map in Z1 as (j & Hj & Z1). apply in_flat_map in Z2 as (j' & Hj' & Z2). apply in_seq in Hj, Hj'.
        destruct (keep p i j); [|destruct Z1]. destruct (keep p' i' j'); [|destruct Z2]. destruct Z1 as [<-|[]], Z2 as [Z2|[]]. apply inj in Z2; auto; try lia; intuition.
    Qed.

    (** entry read at position ix *)
    Let shape := op_shape lroots lbl u.
    Let fl := flat_at shape (canonical_axes (length shape) (ninv lbl fr)) (op_arr lroots cr lbl u).
    Let val (p : nat * nat) := cr lbl fr (e_spin u) (state_of ra fa (fst p)) (state_of ra fa (snd p)).
    Lemma locals_is (m : list nat) : let ax := inv_unique (ninv lbl fr) in
      locals lroots ax (map (fun f => nth f m 0) ax) = zeroed lroots fr m.
    Proof.
      intros ax. destruct (inv_unique_spec (ninv lbl fr)) as [_ I]. fold ax in I. unfold locals, zeroed. apply map_ext_in. intros f _.
      assert (E : existsb (Nat.eqb f) ax = existsb (Nat.eqb f) fr).
      { apply Bool.eq_iff_eq_true. rewrite !existsb_exists. split; intros (g & Hg & Eg); exists g; (split; [|exact Eg]); [apply Hinv; now apply I | apply I; now apply Hinv]. }
      rewrite E. destruct (existsb (Nat.eqb f) fr) eqn:Ef; [|reflexivity]. assert (If : In f ax) by (apply existsb_exists in E as (g & Hg & Eg); apply Nat.eqb_eq in Eg as ->; exact Hg).
      destruct (position_spec f ax If) as [P1 P2]. rewrite (nth_indep _ 0 (nth 0 m 0)) by now rewrite map_length. rewrite (map_nth (fun f => nth f m 0)), P2. reflexivity.
    Qed.
    Lemma entry_read a c : a < na -> c < nc -> fl (a * nc + c) = val (nth a (rng rb fr) 0, nth c (rng rk fr) 0) /\ exists v, val (nth a (rng rb fr) 0, nth c (rng rk fr) 0) = Ok v.
    Proof.
      intros Ha Hc. assert (Z : forall r, r < nroots -> 0 < prodN (sel (col r) sp)).
      { intros r Hr. assert (G : forall l, (forall f, In f l -> f < n) -> 0 < prodN (sel (col r) l)).
        { induction l as [|f l IH]; intros H; cbn; [lia|]. specialize (IH (fun g Hg => H g (or_intror Hg))). pose proof (Hpos r f Hr (H f (or_introl eq_refl))). unfold sel in IH. nia. }
        apply G. intros f Hf. now apply in_spec in Hf. }
      destruct (pair_address fr rb rb Hfr Hrb Hrb (fun _ _ => eq_refl) a 0 Ha (Z rb Hrb)) as (m & Rm & M1 & _ & _ & M4).
      destruct (pair_address fr rk rk Hfr Hrk Hrk (fun _ _ => eq_refl) c 0 Hc (Z rk Hrk)) as (m' & Rm' & M1' & _ & _ & M4').
      unfold val. cbn [fst snd]. rewrite M4, M4'. split; [|apply Hcr; assumption].
      assert (Ip : forall f, In f (pyset fr) <-> In f (ninv lbl fr)) by (intros f; rewrite Hinv; apply Hset).
      assert (Il : forall f, In f (ninv lbl fr) -> f < length (col rb) /\ f < length (col rk)) by (intros f Hf; apply Hinv in Hf; unfold col; rewrite !col_len; split; now apply Hfr).
      pose proof (flat_at_pack (op_arr lroots cr lbl u) (col rb) (col rk) (ninv lbl fr) (pyset fr) m m' Hasc Ip Il Rm Rm') as E. cbn zeta in E.
      unfold fl, shape, op_shape. fold fr rb rk. change (column lroots rb) with (col rb). change (column lroots rk) with (col rk). unfold nc. rewrite M1, M1'. etransitivity; [exact E|].
      unfold op_arr. fold fr rb rk. set (ax := inv_unique (ninv lbl fr)). f_equal; f_equal.
      - rewrite <- (locals_is m). fold ax. f_equal. apply (nth_ext _ _ 0 0); [now rewrite !map_length, seq_length|]. intros k Hk. rewrite map_length, seq_length in Hk.
        rewrite (nth_map_seq0 (fun k => nth (2 * k) (flat_map (fun f => [nth f m 0; nth f m' 0]) ax) 0)) by assumption. rewrite (proj1 (pairs_nth (fun f => nth f m 0) (fun f => nth f m' 0) ax k Hk)).
        rewrite (nth_indep (map (fun f => nth f m 0) ax) 0 (nth 0 m 0)) by now rewrite map_length. now rewrite (map_nth (fun f => nth f m 0)).
      - rewrite <- (locals_is m'). fold ax. f_equal. apply (nth_ext _ _ 0 0); [now rewrite !map_length, seq_length|]. intros k Hk. rewrite map_length, seq_length in Hk.
        rewrite (nth_map_seq0 (fun k => nth (2 * k + 1) (flat_map (fun f => [nth f m 0; nth f m' 0]) ax) 0)) by assumption. rewrite (proj2 (pairs_nth (fun f => nth f m 0) (fun f => nth f m' 0) ax k Hk)).
        rewrite (nth_indep (map (fun f => nth f m' 0) ax) 0 (nth 0 m' 0)) by now rewrite map_length. now rewrite (map_nth (fun f => nth f m' 0)).
    Qed.
    Let stept (t : @tdm K bool) (p : nat * nat) : @tdm K bool :=
      fold_left (put1 (Dval lbl fr (e_spin u) (state_of ra fa (fst p)) (state_of ra fa (snd p)))) (spec_addr_ovlp lroots fa cache (fst p) (snd p)) t.
    Lemma put_both_sim hs t p v : sim hs t -> val p = Ok v -> NoDup (map fst (spec_addr_ovlp lroots fa cache (fst p) (snd p))) ->
      sim (put_both hs (spec_addr_ovlp lroots fa cache (fst p) (snd p)) v) (stept t p).
    Proof.
      intros S E N b k. unfold stept, put_both. cbn [fst snd]. rewrite !put_sum. destruct (S b k) as [S1 S2]. rewrite (put_op_sum _ _ _ _ _ N), S1. split.
      - f_equal. apply bsum_ext. intros [[b' k'] w] _. unfold hitv, Dval. unfold val in E. rewrite E. reflexivity.
      - rewrite <- S2. unfold val in E. destruct (snd v) as [w|] eqn:Ev.
        + rewrite (put_op_sum _ _ _ _ _ N). f_equal. apply bsum_ext. intros [[b' k'] w'] _. unfold hitv, Dval. rewrite E, Ev. reflexivity.
        + rewrite bsum_0; [ring|]. intros [[b' k'] w'] _. unfold hitv, Dval. rewrite E, Ev. cbn [some0]. destruct (_ && _); [ring|reflexivity].
    Qed.
    Lemma put_items_sim : forall ps ix hs t, (forall k, k < length ps -> exists v, fl (ix + k) = Ok v /\ val (nth k ps (0, 0)) = Ok v) ->
      (forall p, In p ps -> NoDup (map fst (spec_addr_ovlp lroots fa cache (fst p) (snd p)))) -> sim hs t ->
      exists hs', put_items lroots fa fl cache ix ps hs = Ok hs' /\ sim hs' (fold_left stept ps t).
    Proof.
      induction ps as [|p ps IH]; intros ix hs t H N Hs; cbn [put_items fold_left]; [eauto|].
      destruct (H 0 ltac:(cbn; lia)) as (v & E1 & E2). rewrite Nat.add_0_r in E1. cbn [nth] in E2. rewrite E1. cbn [bind]. apply IH.
      - intros k Hk. destruct (H (S k) ltac:(cbn; lia)) as (w & F1 & F2). exists w. split; [rewrite <- F1; f_equal; lia | exact F2].
      - intros q Hq. apply N. now right.
      - apply put_both_sim; auto. apply N. now left.
    Qed.
    Variables nonuniq spman : list ((nat * nat * list nat) * list (nat * nat)).
    Lemma env_sim hs t : get_key (key_of u) nonuniq = Some images -> get_key (key_of u) spman = Some [(rb, rk)] -> sim hs t ->
      exists hs', ham_env half big pyset lroots ovlp spin_shuffle frag_shuffle fa cr nonuniq spman lbl hs u = Ok hs' /\
      exists t', loop_lroots half big pyset lroots ovlp spin_shuffle frag_shuffle ra fa Dval nonuniq lbl t u = Ok t' /\ sim hs' t'.
    Proof.
      intros E1 E2 S. unfold ham_env, loop_lroots. rewrite E1, E2. cbn [put_cases fst snd]. change (rb, rk, e_frags u) with (key_of u). rewrite E1.
      fold fr. fold cache. fold rb rk. change (op_shape lroots lbl u) with shape. change (flat_at shape (canonical_axes (length shape) (ninv lbl fr)) (op_arr lroots cr lbl u)) with fl.
      destruct (put_items_sim (list_prod (rng rb fr) (rng rk fr)) 0 hs t) as (hs' & F1 & F2); auto.
      - intros k Hk. rewrite prod_length, !len_rng in Hk. fold na nc in Hk. cbn [Nat.add]. assert (N0 : nc <> 0) by (intros Z; rewrite Z in Hk; lia).
        pose proof (Nat.div_mod_eq k nc) as Ek. assert (Hm : k mod nc < nc) by now apply Nat.mod_upper_bound. assert (Hd : k / nc < na) by (apply Nat.div_lt_upper_bound; lia).
        destruct (entry_read (k / nc) (k mod nc) Hd Hm) as (G1 & v & G2). exists v. replace k with (k / nc * nc + k mod nc) by lia. split; [congruence|].
        assert (L : length (rng rk fr) = nc) by apply len_rng. pose proof (nth_list_prod (rng rb fr) (rng rk fr) (k / nc) (k mod nc)) as Q. rewrite L, len_rng in Q. rewrite Q by assumption. exact G2.
      - intros p Hp. apply (In_nth _ _ (0, 0)) in Hp as (k & Hk & Ep). rewrite prod_length, !len_rng in Hk. fold na nc in Hk. assert (N0 : nc <> 0) by (intros Z; rewrite Z in Hk; lia).
        pose proof (Nat.div_mod_eq k nc) as Ek. assert (Hm : k mod nc < nc) by now apply Nat.mod_upper_bound. assert (Hd : k / nc < na) by (apply Nat.div_lt_upper_bound; lia).
        replace k with (k / nc * nc + k mod nc) in Ep by lia. assert (L : length (rng rk fr) = nc) by apply len_rng. pose proof (nth_list_prod (rng rb fr) (rng rk fr) (k / nc) (k mod nc)) as Q. rewrite L, len_rng in Q. rewrite Q in Ep by assumption. subst p. cbn [fst snd]. now apply cache_keys.
      - exists hs'. rewrite F1. cbn [bind]. split; [reflexivity|]. eexists. split; [reflexivity|]. exact F2.
    Qed.
  End Row.
  Definition row_ok (lbl : nat) (u : erow) (images : list (nat * nat)) : Prop :=
    (forall f, In f (e_frags u) -> f < n) /\ e_bra u < nroots /\ e_ket u < nroots /\ NoDup images /\
    (forall p, In p images -> fst p < nroots /\ snd p < nroots /\ (forall f, In f (e_frags u) -> nth f (col (e_bra u)) 0 = nth f (col (fst p)) 0) /\ (forall f, In f (e_frags u) -> nth f (col (e_ket u)) 0 = nth f (col (snd p)) 0)) /\
    StronglySorted lt (pyset (e_frags u)) /\ (forall f, In f (ninv lbl (e_frags u)) <-> In f (e_frags u)) /\
    (forall m m', in_range (col (e_bra u)) m -> in_range (col (e_ket u)) m' -> exists v, cr lbl (e_frags u) (e_spin u) (e_bra u, zeroed lroots (e_frags u) m) (e_ket u, zeroed lroots (e_frags u) m') = Ok v).
  Variables nonuniq spman : list ((nat * nat * list nat) * list (nat * nat)).
  Definition keyed (lbl : nat) (u : erow) : Prop := exists im, get_key (key_of u) nonuniq = Some im /\ get_key (key_of u) spman = Some [(e_bra u, e_ket u)] /\ row_ok lbl u im.
  Lemma rows_sim lbl : forall rows hs t, (forall u, In u rows -> keyed lbl u) -> sim hs t ->
    exists hs', ham_rows half big pyset lroots ovlp spin_shuffle frag_shuffle fa cr nonuniq spman lbl rows hs = Ok hs' /\
    exists t', loop_rows half big pyset lroots ovlp spin_shuffle frag_shuffle ra fa Dval nonuniq lbl rows t = Ok t' /\ sim hs' t'.
  Proof.
    induction rows as [|u rows IH]; intros hs t H S; cbn [ham_rows loop_rows]; [eauto|].
    destruct (H u (or_introl eq_refl)) as (im & G1 & G2 & (R1 & R2 & R3 & R4 & R5 & R6 & R7 & R8)).
    destruct (env_sim lbl u im R1 R2 R3 R4 R5 R6 R7 R8 nonuniq spman hs t G1 G2 S) as (hs1 & F1 & t1 & F2 & S1). rewrite F1, F2. cbn [bind]. apply IH; auto. intros; apply H; now right.
  Qed.
  Lemma tables_sim : forall tabs lbl hs t, (forall k l u, nth_error tabs k = Some l -> In u l -> keyed (lbl + k) u) -> sim hs t ->
    exists hs', ham_tables half big pyset lroots ovlp spin_shuffle frag_shuffle fa cr nonuniq spman lbl tabs hs = Ok hs' /\
    exists t', loop_tables half big pyset lroots ovlp spin_shuffle frag_shuffle ra fa Dval nonuniq lbl tabs t = Ok t' /\ sim hs' t'.
  Proof.
    induction tabs as [|l tabs IH]; intros lbl hs t H Hs; cbn [ham_tables loop_tables]; [eauto|].
    destruct (rows_sim lbl l hs t) as (hs1 & F1 & t1 & F2 & S1); auto; [intros u Hu; specialize (H 0 l u eq_refl Hu); now rewrite Nat.add_0_r in H|]. rewrite F1, F2. cbn [bind]. apply IH; auto.
    intros k l' u Hk Hu. replace (S lbl + k) with (lbl + S k) by lia. now apply (H (S k) l').
  Qed.
End Sim.
