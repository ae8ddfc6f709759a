(** A rotation of local states and sesquilinear forms of product states. *)
From Coq Require Import List NArith Bool Arith Lia Ring.
From Verif Require Import Base BaseFacts Star AddrModel AddrFacts AddrSpec AddrProofs FockSpec LprodSpec OvlpFacts UmatModel UmatFacts.
Import ListNotations.
Local Open Scope nat_scope.

(** ** what the rotations stand for *)
(** the CI vector i of fragment f in rootspace r, from the vectors [V] of its equivalent: the row axis of the matrix is contracted *)
Definition original {K : star_ring} (V : nat -> nat -> nat -> vec K) (umat_root : nat -> list (nat * list (list K))) (f r i : nat) : vec K := fun d =>
  match find (fun it => fst it =? r) (umat_root f) with
  | Some it => bsum (seq 0 (length (snd it))) (fun a => smul (entry (snd it) a i) (V f r a d))
  | None => V f r i d
  end.
Definition conjugate {K : star_ring} (umat_root : nat -> list (nat * list (list K))) (f : nat) : list (nat * list (list K)) :=
  map (fun it => (fst it, map (map sconj) (snd it))) (umat_root f).
(** the product state *)
Definition prod_state {K : star_ring} (nf : nat) (n : nat -> nat) (V : nat -> nat -> nat -> vec K) (r : nat) (e : list nat) : vec K :=
  las_state K nf n (fun f => V f r (nth f e 0)).
Definition sesquilinear {K : star_ring} (L : vec K -> vec K -> K) : Prop :=
  (forall (l : list nat) (c : nat -> K) v w, L (fun d => bsum l (fun a => smul (c a) (v a d))) w = bsum l (fun a => smul (sconj (c a)) (L (v a) w))) /\
  (forall (l : list nat) (c : nat -> K) v w, L w (fun d => bsum l (fun a => smul (c a) (v a d))) = bsum l (fun a => smul (c a) (L w (v a)))) /\
  (forall u u' w w' : vec K, (forall d, u d = u' d) -> (forall d, w d = w' d) -> L u w = L u' w').

Section Form.
  Context {K : star_ring}.
  Add Ring Kring : (sring K).
  Variables (nf : nat) (n : nat -> nat) (lr : list (list nat)).
  Hypothesis Hlen : length lr = nf.
  Let m := length (hd [] lr).
  Notation adr r e := (states_before lr r + colmajor (dims_of lr r) e) (only parsing).
  Notation item := (nat * nat * list (list K))%type.
  Notation vecs := (nat -> nat -> nat -> vec K).

  Definition step (V : vecs) (it : item) : vecs := let '(f0, r0, u) := it in
    fun f r i => if (f =? f0) && (r =? r0) then fun d => bsum (seq 0 (length u)) (fun a => smul (entry u a i) (V f r a d)) else V f r i.
  Lemma bprod_lin (l : list nat) (k : list nat) (c : nat -> K) (g : nat -> K) (h : nat -> nat -> K) f0 : NoDup l -> In f0 l ->
    g f0 = bsum k (fun a => smul (c a) (h a f0)) -> (forall a f, In f l -> f <> f0 -> h a f = g f) -> bprod K l g = bsum k (fun a => smul (c a) (bprod K l (h a))).
  Proof.
    clear Hlen m lr.
    intros N I G H. induction l as [|f l IH]; [destruct I|]. inversion N as [|? ? N1 N2]; subst. cbn [bprod fold_right]. change (fold_right (fun x r => smul (g x) r) s1 l) with (bprod K l g).
    destruct (Nat.eq_dec f f0) as [->|D].
    - assert (E : forall a, bprod K l (h a) = bprod K l g).
      { intros a. clear IH. assert (A : forall q, (forall f, In f q -> In f l) -> bprod K q (h a) = bprod K q g); [|now apply A]. induction q as [|f q IHq]; intros Hq; [reflexivity|]. cbn [bprod fold_right].
        rewrite (H a f); [|right; apply Hq; now left|intros ->; apply N1, Hq; now left]. f_equal. apply IHq. intros; apply Hq; now right. }
      rewrite G, bsum_mul_r. apply bsum_ext. intros a _. change (fold_right (fun x r => smul (h a x) r) s1 l) with (bprod K l (h a)). rewrite E. ring.
    - destruct I as [->|I]; [contradiction|]. rewrite (IH N2 I) by (intros; apply H; [now right|assumption]). rewrite bsum_mul_l. apply bsum_ext. intros a _.
      change (fold_right (fun x r => smul (h a x) r) s1 l) with (bprod K l (h a)). rewrite (H a f); [ring|now left|exact D].
  Qed.
  Lemma prod_step V f0 r0 u r e d : f0 < nf -> length e = nf ->
    prod_state nf n (step V (f0, r0, u)) r e d = if r =? r0 then bsum (seq 0 (length u)) (fun a => smul (entry u a (nth f0 e 0)) (prod_state nf n V r (put f0 a e) d)) else prod_state nf n V r e d.
  Proof.
    clear Hlen m lr.
    intros Hf He. unfold prod_state, las_state. destruct (r =? r0) eqn:Er.
    - apply (bprod_lin (seq 0 nf) (seq 0 (length u)) _ _ (fun a f => V f r (nth f (put f0 a e) 0) (frag_det nf n f d)) f0); [apply seq_NoDup|apply in_seq; lia| |].
      + cbn [step]. rewrite Nat.eqb_refl, Er. cbn [andb]. apply bsum_ext. intros a _. rewrite put_nth, Nat.eqb_refl by lia. reflexivity.
      + intros a f If Df. cbn [step]. rewrite put_nth by lia. rewrite (proj2 (Nat.eqb_neq f f0) Df). reflexivity.
    - unfold bprod. cbn [step]. induction (seq 0 nf) as [|f l IH]; [reflexivity|]. cbn [fold_right]. rewrite IH, Er, andb_false_r. reflexivity.
  Qed.

  (** ** one rotation *)
  Definition item_ok (it : item) : Prop := let '(f, r, u) := it in f < nf /\ r < m /\ 0 < nth f (dims_of lr r) 0 /\ square (nth f (dims_of lr r) 0) u.
  Definition cmat (u : list (list K)) : list (list K) := map (map sconj) u.
  Definition citem (it : item) : item := let '(f, r, u) := it in (f, r, cmat u).
  Lemma entry_c u a b : entry (cmat u) a b = sconj (entry u a b).
  Proof.
    unfold entry, cmat. rewrite <- (map_nth sconj). rewrite sconj_0. f_equal. exact (map_nth (map sconj) u [] a).
  Qed.
  Variable count size : nat.
  Hypothesis Hcount : states_before lr m = count.
  Hypothesis Hsize : 0 < size.
  Hypothesis Hpos : 0 < count.
  Definition holds (T : nat -> nat -> nat -> K) (L : vec K -> vec K -> K) (x : nat) (Vb Vk : vecs) : Prop :=
    forall r e r' e', r < m -> r' < m -> in_range (dims_of lr r) e -> in_range (dims_of lr r') e' -> T (adr r e) (adr r' e') x = L (prod_state nf n Vb r e) (prod_state nf n Vk r' e').
  Lemma dims_len r : length (dims_of lr r) = nf.
  Proof. unfold dims_of. now rewrite map_length. Qed.
  Lemma one_item it T : item_ok it -> exists T', umat_loop lr count size [it] T = Ok T' /\
    forall L x Vb Vk, sesquilinear L -> x < size -> holds T L x Vb Vk -> holds T' L x (step Vb (citem it)) (step Vk it).
  Proof.
    destruct it as [[f0 r0] u]. intros (Hf & Hr & Hd & Hs). cbn [umat_loop].
    destruct (axes_at lr count size Hcount Hsize f0 r0 u T Hr ltac:(rewrite Hlen; exact Hf) Hd Hs Hpos) as (T1 & T2 & E1 & E2 & V2). rewrite E1. cbn [bind]. rewrite E2. cbn [bind]. exists T2. split; [reflexivity|].
    intros L x Vb Vk (La & Lb & Lx) Hx H r e r' e' Lr Lr' R R'. rewrite (V2 r e r' e' x Lr Lr' R R' Hx). cbn zeta beta. cbn [citem].
    assert (Le : length e = nf) by (rewrite (in_range_length _ _ R); apply dims_len). assert (Le' : length e' = nf) by (rewrite (in_range_length _ _ R'); apply dims_len).
    assert (Lu : length u = nth f0 (dims_of lr r0) 0) by exact (proj1 Hs). assert (Lc : length (cmat u) = length u) by apply map_length.
    assert (A : forall q d, q < m -> in_range (dims_of lr q) d ->
      (if r =? r0 then bsum (seq 0 (nth f0 (dims_of lr r0) 0)) (fun a => smul (entry u a (nth f0 e 0)) (T (adr r (put f0 a e)) (adr q d) x)) else T (adr r e) (adr q d) x) = L (prod_state nf n (step Vb (f0, r0, cmat u)) r e) (prod_state nf n Vk q d)).
    { intros q d Lq Rd. transitivity (if r =? r0 then L (fun d' => bsum (seq 0 (length u)) (fun a => smul (entry (cmat u) a (nth f0 e 0)) (prod_state nf n Vb r (put f0 a e) d'))) (prod_state nf n Vk q d) else L (prod_state nf n Vb r e) (prod_state nf n Vk q d)).
      - destruct (Nat.eqb_spec r r0) as [->|]; [|now apply H]. rewrite La, Lu. apply bsum_ext. intros a Ia. apply in_seq in Ia. rewrite entry_c, sconj_inv. f_equal. apply H; try assumption. apply put_range; [exact R|lia].
      - destruct (r =? r0) eqn:Er; (apply Lx; [|reflexivity]); intros d'; rewrite prod_step by assumption; rewrite Er, ?Lc; reflexivity. }
    transitivity (if r' =? r0 then L (prod_state nf n (step Vb (f0, r0, cmat u)) r e) (fun d' => bsum (seq 0 (length u)) (fun a => smul (entry u a (nth f0 e' 0)) (prod_state nf n Vk r' (put f0 a e') d'))) else L (prod_state nf n (step Vb (f0, r0, cmat u)) r e) (prod_state nf n Vk r' e')).
    - destruct (Nat.eqb_spec r' r0) as [->|]; [|now apply A]. rewrite Lb, Lu. apply bsum_ext. intros a Ia. apply in_seq in Ia. f_equal. apply A; [assumption|]. apply put_range; [exact R'|lia].
    - destruct (r' =? r0) eqn:Er; (apply Lx; [reflexivity|]); intros d'; rewrite prod_step by assumption; rewrite Er; reflexivity.
  Qed.
  Lemma loop_holds l : Forall item_ok l -> forall T, exists T', umat_loop lr count size l T = Ok T' /\
    forall L x Vb Vk, sesquilinear L -> x < size -> holds T L x Vb Vk -> holds T' L x (fold_left step (map citem l) Vb) (fold_left step l Vk).
  Proof.
    induction 1 as [|it l Hi _ IH]; intros T; [exists T; split; [reflexivity|]; intros; assumption|].
    destruct (one_item it T Hi) as (T1 & E1 & V1). destruct (IH T1) as (T2 & E2 & V2). exists T2. split.
    - destruct it as [[f r] u]. cbn [umat_loop] in *. destruct (umat_axis0 lr f r u count size T) as [Ta|]; cbn [bind] in *; [|discriminate]. destruct (umat_axis1 lr f r u count size Ta) as [Tb|]; cbn [bind] in *; [|discriminate]. injection E1 as ->. exact E2.
    - intros L x Vb Vk HL Hx H. cbn [map fold_left]. apply V2; [exact HL|exact Hx|]. now apply V1.
  Qed.

  (** ** every rotation is applied once *)
  Definition key (it : item) : nat * nat := fst it.
  Lemma fold_steps l V f r i d : NoDup (map key l) -> fold_left step l V f r i d =
    match find (fun it => (fst (key it) =? f) && (snd (key it) =? r)) l with Some it => bsum (seq 0 (length (snd it))) (fun a => smul (entry (snd it) a i) (V f r a d)) | None => V f r i d end.
  Proof.
    clear Hcount Hsize Hpos Hlen.
    revert V. induction l as [|[[f0 r0] u] l IH]; intros V N; [reflexivity|]. inversion N as [|? ? N1 N2]; subst. cbn [fold_left find key fst snd]. rewrite IH by exact N2. cbn [key fst] in N1.
    destruct ((f0 =? f) && (r0 =? r)) eqn:E.
    - apply andb_true_iff in E as [E1 E2]. apply Nat.eqb_eq in E1, E2. subst f0 r0.
      assert (Fn : find (fun it : item => (fst (key it) =? f) && (snd (key it) =? r)) l = None).
      { destruct (find _ l) as [it|] eqn:E; [|reflexivity]. exfalso. apply find_some in E as [I E]. apply andb_true_iff in E as [E1 E2]. apply Nat.eqb_eq in E1, E2. apply N1. apply in_map_iff. exists it. split; [|exact I]. unfold key in *. destruct (fst it). cbn in *. now subst. }
      rewrite Fn. cbn [step snd]. rewrite !Nat.eqb_refl. reflexivity.
    - assert (S' : forall a d, step V (f0, r0, u) f r a d = V f r a d) by (intros a d'; cbn [step]; rewrite (Nat.eqb_sym f f0), (Nat.eqb_sym r r0), E; reflexivity).
      destruct (find _ l) as [it|]; [|apply S']. apply bsum_ext. intros a _. now rewrite S'.
  Qed.
  Lemma items_keys (um : nat -> list (nat * list (list K))) : (forall f, f < nf -> NoDup (map fst (um f))) -> NoDup (map key (umat_items nf um)).
  Proof.
    clear Hcount Hsize Hpos Hlen.
    intros H. unfold umat_items. assert (G : forall k, k <= nf -> NoDup (map key (flat_map (fun f => map (fun it => (f, fst it, snd it)) (um f)) (seq 0 k))) /\ forall it, In it (flat_map (fun f => map (fun it => (f, fst it, snd it)) (um f)) (seq 0 k)) -> fst (key it) < k); [|now apply G].
    induction k as [|k IH]; intros Hk; [split; [constructor|intros ? []]|]. destruct (IH ltac:(lia)) as [N B]. rewrite seq_S, flat_map_app. cbn [Nat.add flat_map]. rewrite app_nil_r. split.
    - rewrite map_app. pose proof (H k ltac:(lia)) as Nk. rewrite map_map. cbn [key fst].
      assert (N2 : NoDup (map (fun it : nat * list (list K) => (k, fst it)) (um k))).
      { induction (um k) as [|x q IHq]; cbn [map] in *; [constructor|]. inversion Nk; subst. constructor; [|now apply IHq]. intros J. apply in_map_iff in J as (y & E & J). injection E as E. apply H2. rewrite <- E. now apply in_map. }
      assert (D : forall p, In p (map key (flat_map (fun f => map (fun it => (f, fst it, snd it)) (um f)) (seq 0 k))) -> ~ In p (map (fun it : nat * list (list K) => (k, fst it)) (um k))).
      { intros p J J'. apply in_map_iff in J as (it & <- & J). apply B in J. apply in_map_iff in J' as (y & E & _). rewrite <- E in J. cbn in J. lia. }
      revert N D. generalize (map key (flat_map (fun f => map (fun it => (f, fst it, snd it)) (um f)) (seq 0 k))). intros q N D. induction q as [|p q IHq]; [exact N2|]. inversion N; subst. cbn [app]. constructor.
      + intros J. apply in_app_or in J as [J|J]; [contradiction|]. exact (D p (or_introl eq_refl) J).
      + apply IHq; [assumption|]. intros p' J. apply D. now right.
    - intros it J. apply in_app_or in J as [J|J]; [apply B in J; lia|]. apply in_map_iff in J as (y & <- & _). cbn. lia.
  Qed.
  Lemma find_items (um : nat -> list (nat * list (list K))) f r : f < nf ->
    find (fun it : item => (fst (key it) =? f) && (snd (key it) =? r)) (umat_items nf um) = match find (fun it => fst it =? r) (um f) with Some it => Some (f, fst it, snd it) | None => None end.
  Proof.
    clear Hcount Hsize Hpos Hlen.
    intros Hf. unfold umat_items. assert (Fa : forall l l' (p : item -> bool), find p (l ++ l') = match find p l with Some x => Some x | None => find p l' end) by (induction l as [|x l IH]; intros l' p; [reflexivity|]; cbn [app find]; destruct (p x); [reflexivity|apply IH]).
    assert (Fo : forall g q, g <> f -> find (fun it : item => (fst (key it) =? f) && (snd (key it) =? r)) (map (fun it : nat * list (list K) => (g, fst it, snd it)) q) = None).
    { intros g q D. induction q as [|y q IHq]; [reflexivity|]. cbn [map find key fst snd]. rewrite (proj2 (Nat.eqb_neq g f) D). exact IHq. }
    assert (Fi : forall q, find (fun it : item => (fst (key it) =? f) && (snd (key it) =? r)) (map (fun it : nat * list (list K) => (f, fst it, snd it)) q) = match find (fun it => fst it =? r) q with Some it => Some (f, fst it, snd it) | None => None end).
    { induction q as [|y q IHq]; [reflexivity|]. cbn [map find key fst snd]. rewrite Nat.eqb_refl. cbn [andb]. destruct (fst y =? r); [reflexivity|exact IHq]. }
    assert (G : forall l, NoDup l -> find (fun it : item => (fst (key it) =? f) && (snd (key it) =? r)) (flat_map (fun f => map (fun it => (f, fst it, snd it)) (um f)) l) = if existsb (Nat.eqb f) l then match find (fun it => fst it =? r) (um f) with Some it => Some (f, fst it, snd it) | None => None end else None).
    { induction l as [|g l IH]; intros N; [reflexivity|]. inversion N as [|? ? N1 N2]; subst. cbn [flat_map existsb]. rewrite Fa, (IH N2). destruct (Nat.eqb_spec f g) as [<-|D]; cbn [Datatypes.orb].
      - rewrite Fi. destruct (find _ (um f)) as [it|]; [reflexivity|]. destruct (existsb _ l); reflexivity.
      - rewrite Fo by auto. reflexivity. }
    rewrite G by apply seq_NoDup. replace (existsb (Nat.eqb f) (seq 0 nf)) with true; [reflexivity|]. symmetry. apply existsb_exists. exists f. split; [apply in_seq; lia|apply Nat.eqb_refl].
  Qed.
  Lemma items_c (um : nat -> list (nat * list (list K))) : map citem (umat_items nf um) = umat_items nf (conjugate um).
  Proof.
    unfold umat_items, conjugate. induction (seq 0 nf) as [|f l IH]; [reflexivity|]. cbn [flat_map]. rewrite map_app, IH. f_equal. rewrite !map_map. reflexivity.
  Qed.
  Definition umat_ok (um : nat -> list (nat * list (list K))) : Prop :=
    forall f, f < nf -> NoDup (map fst (um f)) /\ forall r u, In (r, u) (um f) -> r < m /\ 0 < nth f (dims_of lr r) 0 /\ square (nth f (dims_of lr r) 0) u.
  Lemma items_ok um : umat_ok um -> Forall item_ok (umat_items nf um).
  Proof.
    clear Hcount Hsize Hpos Hlen.
    intros H. apply Forall_forall. intros [[f r] u] I. unfold umat_items in I. apply in_flat_map in I as (g & Ig & I). apply in_seq in Ig. apply in_map_iff in I as ([q w] & E & I). injection E as -> -> ->. cbn [item_ok]. split; [lia|]. apply (proj2 (H f ltac:(lia)) r u I).
  Qed.
  Lemma conj_keys (um : nat -> list (nat * list (list K))) f : map fst (conjugate um f) = map fst (um f).
  Proof. unfold conjugate. rewrite map_map. reflexivity. Qed.
  Lemma state_original um V r e d : umat_ok um -> prod_state nf n (fold_left step (umat_items nf um) V) r e d = prod_state nf n (original V um) r e d.
  Proof.
    clear Hcount Hsize Hpos Hlen.
    intros H. unfold prod_state, las_state, bprod. assert (A : forall l, (forall f, In f l -> f < nf) -> fold_right (fun f r0 => smul (fold_left step (umat_items nf um) V f r (nth f e 0) (frag_det nf n f d)) r0) s1 l = fold_right (fun f r0 => smul (original V um f r (nth f e 0) (frag_det nf n f d)) r0) s1 l).
    { induction l as [|f l IH]; intros Hl; [reflexivity|]. cbn [fold_right]. rewrite IH by (intros; apply Hl; now right). f_equal. rewrite fold_steps by (apply items_keys; intros; now apply H). rewrite find_items by (apply Hl; now left). unfold original. destruct (find _ (um f)); reflexivity. }
    apply A. intros f I. apply in_seq in I. lia.
  Qed.
  Lemma conj_ok um : umat_ok um -> umat_ok (conjugate um).
  Proof.
    clear Hcount Hsize Hpos Hlen.
    intros H f Hf. destruct (H f Hf) as [N A]. split; [rewrite conj_keys; exact N|]. intros r u I. unfold conjugate in I. apply in_map_iff in I as ([q w] & E & I). injection E as -> <-. destruct (A r w I) as (A1 & A2 & A3 & A4). split; [exact A1|]. split; [exact A2|]. split; [rewrite map_length; exact A3|].
    apply Forall_forall. intros row J. apply in_map_iff in J as (row' & <- & J). rewrite map_length. rewrite Forall_forall in A4. now apply A4.
  Qed.
  Lemma loop_original um T : umat_ok um -> exists T', umat_loop lr count size (umat_items nf um) T = Ok T' /\
    forall L x V, sesquilinear L -> x < size -> holds T L x V V -> holds T' L x (original V (conjugate um)) (original V um).
  Proof.
    intros H. destruct (loop_holds (umat_items nf um) (items_ok um H) T) as (T' & E & V'). exists T'. split; [exact E|]. intros L x V HL Hx HT r e r' e' Lr Lr' R R'.
    rewrite (V' L x V V HL Hx HT r e r' e' Lr Lr' R R'). apply HL; intros d; [rewrite items_c|]; apply state_original; [now apply conj_ok|exact H].
  Qed.
End Form.
