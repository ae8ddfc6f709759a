(** Linear operators, positions of the rotations in a selection, SI vectors. *)
From Coq Require Import List NArith Bool Arith Lia Permutation Ring.
From Verif Require Import Base BaseFacts Star AddrModel AddrFacts AddrSpec AddrProofs FockSpec FockOps LprodSpec HamSpec HamSum OvlpFacts UmatModel UmatFacts UmatForm.
Import ListNotations.
Local Open Scope nat_scope.

(** ** linear operators *)
Section Linear.
  Context {K : star_ring}.
  Add Ring Kring : (sring K).
  Definition linop (A : vec K -> vec K) : Prop := forall (l : list nat) (c : nat -> K) (v : nat -> vec K) (w : vec K),
    (forall d, w d = bsum l (fun a => smul (c a) (v a d))) -> forall d, A w d = bsum l (fun a => smul (c a) (A (v a) d)).
  Lemma lin_ext A u w : linop A -> (forall d, u d = w d) -> forall d, A u d = A w d.
  Proof. intros H E d. rewrite (H [0] (fun _ => s1) (fun _ => w) u); [cbn; ring|]. intros d'. cbn. rewrite E. ring. Qed.
  Lemma lin_id : linop (fun v => v).
  Proof. intros l c v w H d. apply H. Qed.
  Lemma lin_comp A B : linop A -> linop B -> linop (fun v => A (B v)).
  Proof. intros HA HB l c v w H d. apply (HA l c (fun a => B (v a))). intros d'. apply (HB l c v w H). Qed.
  Lemma lin_add A B : linop A -> linop B -> linop (fun v => vadd K (A v) (B v)).
  Proof. intros HA HB l c v w H d. unfold vadd. rewrite (HA l c v w H), (HB l c v w H), <- bsum_add. apply bsum_ext. intros; ring. Qed.
  Lemma lin_scale x A : linop A -> linop (fun v => vscale K x (A v)).
  Proof. intros HA l c v w H d. unfold vscale. rewrite (HA l c v w H), bsum_mul_l. apply bsum_ext. intros; ring. Qed.
  Lemma lin_sum {X} (q : list X) (A : X -> vec K -> vec K) : (forall x, linop (A x)) -> linop (fun v => vsum K q (fun x => A x v)).
  Proof.
    intros HA l c v w H d. unfold vsum. transitivity (bsum q (fun x => bsum l (fun a => smul (c a) (A x (v a) d)))); [apply bsum_ext; intros x _; apply HA, H|].
    rewrite bsum_swap. apply bsum_ext. intros a _. symmetry. apply bsum_mul_l.
  Qed.
  Lemma lin_field m p k : linop (field K m p k).
  Proof.
    intros l c v w E d. assert (Z : s0 = bsum l (fun a => smul (c a) s0)) by (symmetry; apply bsum_0; intros; ring).
    assert (G : forall b e, sg K b (w e) = bsum l (fun a => smul (c a) (sg K b (v a e)))).
    { intros b e. rewrite E. destruct b; cbn [sg]; [|reflexivity]. transitivity (smul (sopp s1) (bsum l (fun a => smul (c a) (v a e)))); [ring|]. rewrite bsum_mul_l. apply bsum_ext. intros; ring. }
    unfold field. destruct k; unfold cre, ann; destruct (bt d p); first [exact Z|apply G].
  Qed.
  Lemma lin_gops nf n ops : linop (gops K nf n ops).
  Proof. induction ops as [|[k [[f dn] o]] ops IH]; [exact lin_id|]. exact (lin_comp _ _ (lin_field (2 * norb nf n) (gorb nf n f dn o) k) IH). Qed.
  Lemma form_of m A : linop A -> sesquilinear (fun u w => inner K m u (A w)).
  Proof.
    intros HA. split; [|split].
    - intros l c v w. unfold inner. transitivity (bsum (dets m) (fun d => bsum l (fun a => smul (sconj (c a)) (smul (sconj (v a d)) (A w d))))).
      + apply bsum_ext. intros d _. rewrite bsum_conj, bsum_mul_r. apply bsum_ext. intros a _. rewrite sconj_mul. ring.
      + rewrite bsum_swap. apply bsum_ext. intros a _. symmetry. apply bsum_mul_l.
    - intros l c v w. unfold inner. transitivity (bsum (dets m) (fun d => bsum l (fun a => smul (c a) (smul (sconj (w d)) (A (v a) d))))).
      + apply bsum_ext. intros d _. rewrite (HA l c v _ (fun _ => eq_refl)), bsum_mul_l. apply bsum_ext. intros a _. ring.
      + rewrite bsum_swap. apply bsum_ext. intros a _. symmetry. apply bsum_mul_l.
    - intros u u' w w' Hu Hw. unfold inner. apply bsum_ext. intros d _. rewrite Hu, (lin_ext A w w' HA Hw). reflexivity.
  Qed.
  Lemma lin_ham nf n half h1 h2 : linop (hamiltonian K nf n half h1 h2).
  Proof.
    unfold hamiltonian. apply lin_add; [|apply lin_scale].
    - apply (lin_sum _ (fun s v => _)). intros s. apply (lin_sum _ (fun p v => _)). intros p. apply (lin_sum _ (fun q v => _)). intros q. apply (lin_scale _ (fun v => _)). unfold mkc, mka. apply (lin_comp (fun v => cre K _ _ v) (fun v => ann K _ _ v)); [exact (lin_field _ _ true)|exact (lin_field _ _ false)].
    - apply (lin_sum _ (fun s v => _)). intros s. apply (lin_sum _ (fun s v => _)). intros t. apply (lin_sum _ (fun p v => _)). intros p. apply (lin_sum _ (fun q v => _)). intros q. apply (lin_sum _ (fun p v => _)). intros r. apply (lin_sum _ (fun q v => _)). intros u. apply (lin_scale _ (fun v => _)). unfold mkc, mka.
      apply (lin_comp (fun v => cre K _ _ v) (fun v => cre K _ _ (ann K _ _ (ann K _ _ v)))); [exact (lin_field _ _ true)|]. apply (lin_comp (fun v => cre K _ _ v) (fun v => ann K _ _ (ann K _ _ v))); [exact (lin_field _ _ true)|].
      apply (lin_comp (fun v => ann K _ _ v) (fun v => ann K _ _ v)); exact (lin_field _ _ false).
  Qed.
End Linear.

Section Spin.
  Context {K : star_ring}.
  Variables (nf : nat) (n : nat -> nat) (half : K).
  Lemma lin_pair dn dn' p q : linop (fun v => mkc K nf n dn p (mka K nf n dn' q v)).
  Proof. unfold mkc, mka. apply (lin_comp (fun v => cre K _ _ v) (fun v => ann K _ _ v)); [exact (lin_field _ _ true)|exact (lin_field _ _ false)]. Qed.
  Lemma lin_s2 : linop (s_squared K nf n half).
  Proof.
    assert (Z : linop (s_z K nf n half)).
    { unfold s_z. apply lin_scale, lin_add; [|apply lin_scale]; apply (lin_sum _ (fun p v => _)); intros p; apply lin_pair. }
    unfold s_squared. apply lin_add; [|apply lin_add; [|exact Z]].
    - apply (lin_comp (s_minus K nf n) (s_plus K nf n)); apply (lin_sum _ (fun p v => _)); intros p; apply lin_pair.
    - apply (lin_comp (s_z K nf n half) (s_z K nf n half)); exact Z.
  Qed.
End Spin.

(** ** the rotations of a selection of rootspaces *)
Section Chosen.
  Context {K : star_ring}.
  Definition at_positions (um : nat -> list (nat * list (list K))) (rootidx : option (list nat)) (f : nat) : list (nat * list (list K)) :=
    match rootidx with
    | None => um f
    | Some l => flat_map (fun pos => match find (fun it => fst it =? nth pos l 0) (um f) with Some it => [(pos, snd it)] | None => [] end) (seq 0 (length l))
    end.
  Lemma chosen_items nf um rootidx : umat_chosen nf um rootidx = umat_items nf (at_positions um rootidx).
  Proof.
    destruct rootidx as [l|]; [|reflexivity]. unfold umat_chosen, umat_items, at_positions. induction (seq 0 nf) as [|f q IH]; [reflexivity|]. cbn [flat_map]. rewrite IH. f_equal. clear IH.
    induction (seq 0 (length l)) as [|pos s IH]; [reflexivity|]. cbn [flat_map]. rewrite map_app, <- IH. f_equal. destruct (find _ (um f)); reflexivity.
  Qed.
  Lemma find_positions um l f pos : pos < length l ->
    find (fun it => fst it =? pos) (at_positions um (Some l) f) = match find (fun it => fst it =? nth pos l 0) (um f) with Some it => Some (pos, snd it) | None => None end.
  Proof.
    intros Hp. cbn [at_positions]. assert (G : forall s, NoDup s -> find (fun it => fst it =? pos) (flat_map (fun pos => match find (fun it => fst it =? nth pos l 0) (um f) with Some it => [(pos, snd it)] | None => [] end) s) =
      if existsb (Nat.eqb pos) s then match find (fun it => fst it =? nth pos l 0) (um f) with Some it => Some (pos, snd it) | None => None end else None).
    { induction s as [|p s IH]; intros N; [reflexivity|]. inversion N as [|? ? N1 N2]; subst. cbn [flat_map existsb]. destruct (Nat.eqb_spec pos p) as [<-|D]; cbn [Datatypes.orb].
      - destruct (find _ (um f)) as [it|]; cbn [app find fst]; [now rewrite Nat.eqb_refl|]. rewrite (IH N2). destruct (existsb _ s); reflexivity.
      - destruct (find (fun it => fst it =? nth p l 0) (um f)) as [it|]; cbn [app find fst]; [rewrite (proj2 (Nat.eqb_neq p pos)) by auto|]; exact (IH N2). }
    rewrite G by apply seq_NoDup. replace (existsb (Nat.eqb pos) (seq 0 (length l))) with true; [reflexivity|]. symmetry. apply existsb_exists. exists pos. split; [apply in_seq; lia|apply Nat.eqb_refl].
  Qed.
  Lemma positions_in um l f pos u : In (pos, u) (at_positions um (Some l) f) -> pos < length l /\ In (nth pos l 0, u) (um f).
  Proof.
    cbn [at_positions]. intros I. apply in_flat_map in I as (p & Ip & I). apply in_seq in Ip. destruct (find _ (um f)) as [it|] eqn:E; [|destruct I]. destruct I as [I|[]]. injection I as <- <-. split; [lia|].
    apply find_some in E as [E1 E2]. apply Nat.eqb_eq in E2. rewrite <- E2. destruct it; exact E1.
  Qed.
  Lemma positions_nodup um l f : NoDup (map fst (at_positions um (Some l) f)).
  Proof.
    cbn [at_positions]. assert (G : forall s, NoDup s -> NoDup (map fst (flat_map (fun pos => match find (fun it => fst it =? nth pos l 0) (um f) with Some it => [(pos, snd it)] | None => [] end) s)) /\
      forall p, In p (map fst (flat_map (fun pos => match find (fun it => fst it =? nth pos l 0) (um f) with Some it => [(pos, snd it)] | None => [] end) s)) -> In p s); [|apply G, seq_NoDup].
    induction s as [|p s IH]; intros N; [split; [constructor|intros ? []]|]. inversion N as [|? ? N1 N2]; subst. destruct (IH N2) as [A B]. cbn [flat_map]. destruct (find _ (um f)) as [it|]; cbn [app map fst]; split.
    - constructor; [intros J; apply N1, B, J|exact A].
    - intros q [<-|J]; [now left|right; apply B, J].
    - exact A.
    - intros q J. right. apply B, J.
  Qed.
End Chosen.

Lemma nth_map_seq {A} (F : nat -> A) k a d : a < k -> nth a (map F (seq 0 k)) d = F a.
Proof. intros H. rewrite (nth_indep _ d (F 0)) by (rewrite map_length, seq_length; lia). rewrite map_nth, seq_nth by lia. reflexivity. Qed.

(** ** the SI vectors *)
Section Si.
  Context {K : star_ring}.
  Add Ring Kring2 : (sring K).
  Variables (nf : nat) (n : nat -> nat) (lr : list (list nat)).
  Hypothesis Hlen : length lr = nf.
  Let m := length (hd [] lr).
  Notation adr r e := (states_before lr r + colmajor (dims_of lr r) e) (only parsing).
  Notation item := (nat * nat * list (list K))%type.
  Notation vecs := (nat -> nat -> nat -> vec K).
  Variable l : list (nat * list nat).
  Hypothesis Hnd : NoDup l.
  Hypothesis Hall : forall r e, In (r, e) l <-> r < m /\ in_range (dims_of lr r) e.
  Variable nsi : nat.
  Hypothesis Hnsi : 0 < nsi.
  Lemma put_put f a b e : put f a (put f b e) = put f a e.
  Proof. unfold put. revert e. induction f as [|f IH]; intros [|x e]; cbn [upd]; try reflexivity. now rewrite IH. Qed.
  Lemma range_nth dims e f : in_range dims e -> f < length dims -> nth f e 0 < nth f dims 0.
  Proof. intros H. revert f. induction H as [|d x ds xs Hx H IH]; intros [|f] Hf; cbn [nth length] in *; try lia. apply IH. lia. Qed.
  Lemma swap_sum f r0 (F : list nat -> nat -> K) : f < nf ->
    bsum l (fun a => if fst a =? r0 then bsum (seq 0 (nth f (dims_of lr r0) 0)) (fun b => F (snd a) b) else s0) =
    bsum l (fun a => if fst a =? r0 then bsum (seq 0 (nth f (dims_of lr r0) 0)) (fun b => F (put f b (snd a)) (nth f (snd a) 0)) else s0).
  Proof.
    intros Hf. set (dim := nth f (dims_of lr r0) 0).
    set (l0 := filter (fun a : nat * list nat => fst a =? r0) l).
    assert (Fl : forall G : nat * list nat -> K, bsum l (fun a => if fst a =? r0 then G a else s0) = bsum l0 G).
    { intros G. unfold l0. clear. induction l as [|a q IH]; [reflexivity|]. cbn [bsum fold_right filter]. fold (bsum (K := K) q). change (fold_right (fun x r => sadd (if fst x =? r0 then G x else s0) r) s0 q) with (bsum q (fun a => if fst a =? r0 then G a else s0)). rewrite IH. destruct (fst a =? r0); cbn [bsum fold_right]; [reflexivity|]. change (fold_right (fun x r => sadd (G x) r) s0 (filter (fun a0 => fst a0 =? r0) q)) with (bsum (filter (fun a0 : nat * list nat => fst a0 =? r0) q) G). ring. }
    rewrite !Fl. clear Fl.
    assert (Pr : forall (q : list (nat * list nat)) (k : list nat) (G : (nat * list nat) * nat -> K), bsum q (fun a => bsum k (fun b => G (a, b))) = bsum (list_prod q k) G).
    { intros q k G. induction q as [|a q IH]; [reflexivity|]. cbn [list_prod]. rewrite bsum_app, <- IH, bsum_map. reflexivity. }
    etransitivity; [exact (Pr l0 (seq 0 dim) (fun p => F (snd (fst p)) (snd p)))|]. symmetry. etransitivity; [exact (Pr l0 (seq 0 dim) (fun p => F (put f (snd p) (snd (fst p))) (nth f (snd (fst p)) 0)))|]. symmetry.
    set (phi := fun p : (nat * list nat) * nat => ((fst (fst p), put f (snd p) (snd (fst p))), nth f (snd (fst p)) 0)).
    assert (In0 : forall a b, In (a, b) (list_prod l0 (seq 0 dim)) <-> fst a = r0 /\ r0 < m /\ in_range (dims_of lr r0) (snd a) /\ b < dim).
    { intros [r e] b. rewrite in_prod_iff, in_seq. unfold l0. rewrite filter_In, Hall. cbn [fst snd]. rewrite Nat.eqb_eq. split; [intros [[[A B] ->] C]; repeat split; try assumption; lia|intros (-> & A & B & C); repeat split; try assumption; lia]. }
    assert (Ph : forall p, In p (list_prod l0 (seq 0 dim)) -> In (phi p) (list_prod l0 (seq 0 dim)) /\ phi (phi p) = p).
    { intros [[r e] b] I. apply In0 in I as (E & A & B & C). cbn [fst snd] in *. subst r. assert (Le : f < length e) by (rewrite (in_range_length _ _ B); unfold dims_of; rewrite map_length; lia).
      unfold phi. cbn [fst snd]. split.
      - apply In0. cbn [fst snd]. repeat split; try assumption; [now apply put_range|]. apply range_nth; [exact B|]. unfold dims_of. rewrite map_length. lia.
      - rewrite put_put, put_same by exact Le. rewrite put_nth by exact Le. now rewrite Nat.eqb_refl. }
    assert (N0 : NoDup (list_prod l0 (seq 0 dim))) by (apply nodup_prod; [apply NoDup_filter; exact Hnd|apply seq_NoDup]).
    rewrite (bsum_perm K (list_prod l0 (seq 0 dim)) (map phi (list_prod l0 (seq 0 dim)))); [rewrite bsum_map; reflexivity|].
    apply NoDup_Permutation; [exact N0| |].
    - assert (G : forall q, NoDup q -> (forall p, In p q -> phi (phi p) = p) -> NoDup (map phi q)).
      { induction 1 as [|p q Np Nq IH]; intros H; cbn [map]; constructor; [|apply IH; intros; apply H; now right]. intros J. apply in_map_iff in J as (p' & E & J). apply Np. rewrite <- (H p (or_introl eq_refl)), <- E, (H p' (or_intror J)). exact J. }
      apply G; [exact N0|]. intros p I. apply Ph, I.
    - intros p. rewrite in_map_iff. split; [intros I; exists (phi p); split; apply Ph, I|intros (p' & <- & I); apply Ph, I].
  Qed.
  Definition weighted (t : nat -> nat -> K) (V : vecs) (root : nat) (d : N) : K :=
    bsum l (fun a => smul (t (adr (fst a) (snd a)) root) (prod_state nf n V (fst a) (snd a) d)).
  Lemma entry_adj (u : list (list K)) a b : a < length u -> b < length u -> entry (adjoint u) a b = sconj (entry u b a).
  Proof. intros Ha Hb. unfold entry at 1, adjoint. rewrite nth_map_seq by exact Ha. rewrite nth_map_seq by exact Hb. reflexivity. Qed.
  Lemma adj_square k (u : list (list K)) : square k u -> square k (adjoint u).
  Proof. intros [L F]. unfold adjoint. split; [now rewrite map_length, seq_length|]. apply Forall_forall. intros row I. apply in_map_iff in I as (a & <- & _). now rewrite map_length, seq_length. Qed.
  Lemma si_one it t V : item_ok nf lr it -> exists t', umat_si lr nsi [it] t = Ok t' /\
    forall root d, root < nsi -> weighted t' V root d = weighted t (step V (citem it)) root d.
  Proof.
    destruct it as [[f r0] u]. intros (Hf & Hr & Hd & Hs). cbn [umat_si].
    destruct (dot_at lr f r0 (adjoint u) nsi t Hr ltac:(rewrite Hlen; exact Hf) Hd (adj_square _ u Hs) Hnsi) as (t' & E & Vt). rewrite E. cbn [bind]. exists t'. split; [reflexivity|]. intros root d Hroot.
    assert (Lu : length u = nth f (dims_of lr r0) 0) by exact (proj1 Hs). assert (Lc : length (cmat u) = length u) by apply map_length. unfold weighted. cbn [citem].
    set (rest := bsum l (fun a => if fst a =? r0 then s0 else smul (t (adr (fst a) (snd a)) root) (prod_state nf n V (fst a) (snd a) d))).
    transitivity (sadd (bsum l (fun a => if fst a =? r0 then bsum (seq 0 (nth f (dims_of lr r0) 0)) (fun b => smul (smul (sconj (entry u (nth f (snd a) 0) b)) (t (adr r0 (put f b (snd a))) root)) (prod_state nf n V r0 (snd a) d)) else s0)) rest).
    - unfold rest. rewrite <- bsum_add. apply bsum_ext. intros [r e] I. cbn [fst snd]. apply Hall in I as [I R]. rewrite (Vt r e root I R Hroot). destruct (Nat.eqb_spec r r0) as [->|]; [|ring].
      rewrite bsum_mul_r. transitivity (bsum (seq 0 (nth f (dims_of lr r0) 0)) (fun b => smul (smul (sconj (entry u (nth f e 0) b)) (t (adr r0 (put f b e)) root)) (prod_state nf n V r0 e d))); [|ring]. apply bsum_ext. intros b Ib. apply in_seq in Ib. rewrite entry_adj; [reflexivity|lia|].
      rewrite Lu. apply range_nth; [exact R|]. unfold dims_of. rewrite map_length. lia.
    - transitivity (sadd (bsum l (fun a => if fst a =? r0 then bsum (seq 0 (nth f (dims_of lr r0) 0)) (fun b => smul (t (adr r0 (snd a)) root) (smul (sconj (entry u b (nth f (snd a) 0))) (prod_state nf n V r0 (put f b (snd a)) d))) else s0)) rest).
      + f_equal. rewrite (swap_sum f r0 (fun e b => smul (t (adr r0 e) root) (smul (sconj (entry u b (nth f e 0))) (prod_state nf n V r0 (put f b e) d))) Hf).
        apply bsum_ext. intros [r e] I. cbn [fst snd]. apply Hall in I as [I R]. destruct (Nat.eqb_spec r r0) as [->|]; [|reflexivity]. apply bsum_ext. intros b _.
        assert (Le : f < length e) by (rewrite (in_range_length _ _ R); unfold dims_of; rewrite map_length; lia). rewrite put_put, put_same, put_nth by exact Le. rewrite Nat.eqb_refl. ring.
      + unfold rest. rewrite <- bsum_add. apply bsum_ext. intros [r e] I. cbn [fst snd]. apply Hall in I as [I R]. rewrite (prod_step nf n) by (first [exact Hf|rewrite (in_range_length _ _ R); unfold dims_of; rewrite map_length; exact Hlen]).
        destruct (Nat.eqb_spec r r0) as [->|]; [|ring]. rewrite Lc, Lu, bsum_mul_l.
        transitivity (bsum (seq 0 (nth f (dims_of lr r0) 0)) (fun b => smul (t (adr r0 e) root) (smul (sconj (entry u b (nth f e 0))) (prod_state nf n V r0 (put f b e) d)))); [ring|]. apply bsum_ext. intros b _. rewrite entry_c. ring.
  Qed.
  Lemma si_loop its : Forall (item_ok nf lr) its -> forall t, exists t', umat_si lr nsi its t = Ok t' /\
    forall V root d, root < nsi -> weighted t' V root d = weighted t (fold_left step (map citem (rev its)) V) root d.
  Proof.
    induction 1 as [|it its Hi _ IH]; intros t; [exists t; split; reflexivity|].
    assert (A : exists t1, umat_si lr nsi [it] t = Ok t1) by (destruct (si_one it t (fun _ _ _ _ => s0) Hi) as (t1 & E & _); now exists t1). destruct A as (t1 & E1).
    destruct (IH t1) as (t2 & E2 & V2). exists t2. split.
    - destruct it as [[f r] u]. cbn [umat_si] in *. destruct (umat_dot lr f r (adjoint u) nsi t) as [ta|]; cbn [bind] in *; [|discriminate]. injection E1 as ->. exact E2.
    - intros V root d Hroot. rewrite (V2 V root d Hroot). cbn [rev]. rewrite map_app, fold_left_app. cbn [map fold_left].
      destruct (si_one it t (fold_left step (map citem (rev its)) V) Hi) as (t1' & E1' & V1). rewrite E1 in E1'. injection E1' as <-. apply V1, Hroot.
  Qed.
  Lemma find_rev (its : list item) f r : NoDup (map key its) -> find (fun it : item => (fst (key it) =? f) && (snd (key it) =? r)) (rev its) = find (fun it : item => (fst (key it) =? f) && (snd (key it) =? r)) its.
  Proof.
    intros N. set (p := fun it : item => (fst (key it) =? f) && (snd (key it) =? r)).
    assert (U : forall x y, In x its -> In y its -> p x = true -> p y = true -> x = y).
    { assert (Q : forall x y, p x = true -> p y = true -> key x = key y) by (intros [x x'] [y y'] A B; unfold p, key in *; cbn [fst] in *; apply andb_true_iff in A as [A1 A2], B as [B1 B2]; apply Nat.eqb_eq in A1, A2, B1, B2; destruct x, y; cbn in *; congruence).
      intros x y Ix Iy Px Py. pose proof (Q x y Px Py) as Ek. clear - N Ix Iy Ek. induction its as [|z q IH]; [destruct Ix|]. cbn [map] in N. inversion N as [|? ? N1 N2]; subst.
      destruct Ix as [->|Ix], Iy as [->|Iy]; [reflexivity| | |now apply IH]; exfalso; apply N1; [rewrite Ek|rewrite <- Ek]; now apply in_map. }
    destruct (find p (rev its)) as [x|] eqn:E1, (find p its) as [y|] eqn:E2; [|..|reflexivity].
    - apply find_some in E1 as [I1 P1]. apply find_some in E2 as [I2 P2]. apply in_rev in I1. f_equal. now apply U.
    - apply find_some in E1 as [I1 P1]. apply in_rev in I1. pose proof (find_none p its E2 x I1) as Z. congruence.
    - apply find_some in E2 as [I2 P2]. apply in_rev in I2. pose proof (find_none p _ E1 y I2) as Z. congruence.
  Qed.
  Lemma si_original um t : umat_ok nf lr um -> exists t', umat_si lr nsi (umat_items nf um) t = Ok t' /\
    forall V root d, root < nsi -> weighted t' V root d = weighted t (original V (conjugate um)) root d.
  Proof.
    intros H. destruct (si_loop (umat_items nf um) (items_ok nf lr um H) t) as (t' & E & Vt). exists t'. split; [exact E|]. intros V root d Hroot. rewrite (Vt V root d Hroot). unfold weighted. apply bsum_ext. intros [r e] I. cbn [fst snd]. f_equal.
    pose proof (conj_ok nf lr um H) as H'. rewrite <- (state_original nf n lr (conjugate um) V r e d H'). rewrite map_rev, items_c.
    unfold prod_state, las_state, bprod. assert (A : forall q, fold_right (fun f r0 => smul (fold_left step (rev (umat_items nf (conjugate um))) V f r (nth f e 0) (frag_det nf n f d)) r0) s1 q = fold_right (fun f r0 => smul (fold_left step (umat_items nf (conjugate um)) V f r (nth f e 0) (frag_det nf n f d)) r0) s1 q); [|apply A].
    assert (Nk : NoDup (map key (umat_items nf (conjugate um)))) by (apply (items_keys nf lr); intros; now apply H').
    induction q as [|f q IH]; [reflexivity|]. cbn [fold_right]. rewrite IH. f_equal. rewrite !fold_steps; [|exact Nk|rewrite map_rev; apply NoDup_rev; exact Nk]. rewrite find_rev by exact Nk. reflexivity.
  Qed.
End Si.
