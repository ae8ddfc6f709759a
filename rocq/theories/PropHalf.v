(** Property C64: the fragment matrices from which the transition density matrices are built. *)
From Coq Require Import List NArith ZArith Arith Bool Lia QArith Qcanon.
From Verif Require Import Base BaseFacts Star AddrModel AddrSpec SCModel SCSpec FockSpec LprodSpec LasElem UexcModel SignsModel PropUexc DetModel StdmModel StdmFacts StdmSum PropStdm CrunchModel CrunchSpec CrunchFacts PropCrunch HalfSpec HalfModel HalfFacts HalfFun HalfDms HalfInner.
Import ListNotations.
Close Scope Qc_scope. Close Scope Q_scope.
Local Open Scope nat_scope.

Definition elem1 {K : star_ring} (n : nat) (nb nk : nat * nat) (bra ket : mat K) (ops : list opr) : K :=
  inner K (2 * n) (civec n nb bra) (lops K (fun _ => n) ops (civec n nk ket)).

(** trans_rdm1ha_des, trans_rdm1hb_des, trans_rdm13ha_des, trans_rdm13hb_des: <bra| r |ket> and <bra| p' q r |ket>. *)
Theorem C64_annihilation : forall (K : star_ring) (n s : nat) (ne : nat * nat) (bra ket : mat K) link,
  (forall x : K, sconj x = x) -> s < 2 -> 0 < (if s =? 0 then fst ne else snd ne) -> (link = None \/ link = Some (n + 1, ne)) ->
  let nb := if s =? 0 then (fst ne - 1, snd ne) else (fst ne, snd ne - 1) in
  (exists h, trans_rdm1hs false bra ket n ne s link = Ok h /\ forall r, r < n -> h [r] = elem1 n nb ne bra ket [an s (0, r)]) /\
  exists h a b, trans_rdm13hs false bra ket n ne s link = Ok (h, a, b) /\
    (forall r, r < n -> h [r] = elem1 n nb ne bra ket [an s (0, r)]) /\
    (forall r p q, r < n -> p < n -> q < n -> a [r; p; q] = elem1 n nb ne bra ket [cr 0 (0, p); an 0 (0, q); an s (0, r)]) /\
    (forall r p q, r < n -> p < n -> q < n -> b [r; p; q] = elem1 n nb ne bra ket [cr 1 (0, p); an 1 (0, q); an s (0, r)]).
Proof. intros K n s ne bra ket link Hr Hs Hn Hl nb. split; [exact (rdm1_des Hr s n ne bra ket link Hs Hn Hl)|exact (rdm13_des Hr s n ne bra ket link Hs Hn Hl)]. Qed.
Print Assumptions C64_annihilation.

(** trans_rdm1ha_cre, trans_rdm1hb_cre, trans_rdm13ha_cre, trans_rdm13hb_cre: <bra| r' |ket> and <bra| r' p' q |ket>. *)
Theorem C64_creation : forall (K : star_ring) (n s : nat) (ne : nat * nat) (bra ket : mat K) link, (forall x : K, sconj x = x) -> s < 2 ->
  let nb := if s =? 0 then (fst ne + 1, snd ne) else (fst ne, snd ne + 1) in
  (link = None \/ link = Some (n + 1, nb)) ->
  (exists h, trans_rdm1hs true bra ket n ne s link = Ok h /\ forall r, r < n -> h [r] = elem1 n nb ne bra ket [cr s (0, r)]) /\
  exists h a b, trans_rdm13hs true bra ket n ne s link = Ok (h, a, b) /\
    (forall r, r < n -> h [r] = elem1 n nb ne bra ket [cr s (0, r)]) /\
    (forall r p q, r < n -> p < n -> q < n -> a [r; p; q] = elem1 n nb ne bra ket [cr s (0, r); cr 0 (0, p); an 0 (0, q)]) /\
    (forall r p q, r < n -> p < n -> q < n -> b [r; p; q] = elem1 n nb ne bra ket [cr s (0, r); cr 1 (0, p); an 1 (0, q)]).
Proof. intros K n s ne bra ket link Hr Hs nb Hl. split; [exact (rdm1_cre Hr s n ne bra ket link Hs Hl)|exact (rdm13_cre Hr s n ne bra ket link Hs Hl)]. Qed.
Print Assumptions C64_creation.

(** trans_sfudm1 and trans_sfddm1: <bra| p'(up) q(down) |ket> and <bra| p'(down) q(up) |ket>. *)
Theorem C64_spin_flip : forall (K : star_ring) (n : nat) (ne : nat * nat) (bra ket : mat K) link, (forall x : K, sconj x = x) ->
  (0 < snd ne -> (link = None \/ link = Some (n + 1, (fst ne + 1, snd ne))) ->
    exists x, trans_sfudm1 bra ket n ne link = Ok x /\ forall p q, p < n -> q < n -> x [p; q] = elem1 n (fst ne + 1, snd ne - 1) ne bra ket [cr 0 (0, p); an 1 (0, q)]) /\
  (0 < fst ne -> (link = None \/ link = Some (n + 1, (fst ne, snd ne + 1))) ->
    exists x, trans_sfddm1 bra ket n ne link = Ok x /\ forall p q, p < n -> q < n -> x [p; q] = elem1 n (fst ne - 1, snd ne + 1) ne bra ket [cr 1 (0, p); an 0 (0, q)]).
Proof. intros K n ne bra ket link Hr. split; [exact (sfu Hr n ne bra ket link)|exact (sfd Hr n ne bra ket link)]. Qed.
Print Assumptions C64_spin_flip.

(** trans_ppdm and trans_hhdm with spin = 0, 1, 2: <bra| p' q' |ket> with spins up-up, up-down, down-down, and <bra| p q |ket> with
    spins up-up, down-up, down-down. *)
Theorem C64_pairs : forall (K : star_ring) (n c : nat) (ne : nat * nat) (bra ket : mat K) link, (forall x : K, sconj x = x) -> c < 3 ->
  ((link = None \/ link = Some (n + (2 - c mod 2), (fst ne + (2 - c), snd ne + c))) ->
    exists x, trans_ppdm bra ket n ne c link = Ok x /\ forall p q, p < n -> q < n -> x [p; q] = elem1 n (fst ne + (2 - c), snd ne + c) ne bra ket [cr (c / 2) (0, p); cr (c - c / 2) (0, q)]) /\
  (2 - c <= fst ne -> c <= snd ne -> (link = None \/ link = Some (n + (2 - c mod 2), ne)) ->
    exists x, trans_hhdm bra ket n ne c link = Ok x /\ forall p q, p < n -> q < n -> x [p; q] = elem1 n (fst ne - (2 - c), snd ne - c) ne bra ket [an (c - c / 2) (0, p); an (c / 2) (0, q)]).
Proof.
  intros K n c ne bra ket link Hr Hc. split; [|exact (hhdm Hr c n ne bra ket link Hc)]. intros Hl.
  assert (R : raise_nelec (pp2 c) (raise_nelec (pp1 c) ne) = (fst ne + (2 - c), snd ne + c)) by (destruct c as [|[|[|c]]]; [| | |lia]; cbn; f_equal; lia).
  destruct (ppdm Hr c n ne bra ket link Hc) as (x & E & Hx); [rewrite R; exact Hl|]. rewrite R in Hx. exists x. split; [exact E|]. intros p q Hp Hq. rewrite Hx by assumption. destruct c as [|[|[|c]]]; [| | |lia]; reflexivity.
Qed.
Print Assumptions C64_pairs.

(** *** The tables *)
(** CI arrays of all fragments: number of fragments and their orbitals; of every fragment the number of unique roots and their first
    rootspaces, CI arrays, electrons and numbers of states; the unique root of every fragment in every rootspace. *)
Record ci_set (K : star_ring) := mkCI { c_nf : nat; c_norb : nat -> nat; c_nu : nat -> nat; c_uaddr : nat -> nat -> nat; c_ci : nat -> nat -> nat -> mat K; c_ne : nat -> nat -> nat * nat;
  c_nl : nat -> nat -> nat; c_ur : nat -> nat -> nat; c_nroots : nat }.
Arguments mkCI {K}. Arguments c_nf {K}. Arguments c_norb {K}. Arguments c_nu {K}. Arguments c_uaddr {K}. Arguments c_ci {K}. Arguments c_ne {K}. Arguments c_nl {K}. Arguments c_ur {K}. Arguments c_nroots {K}.
Section Tables.
  Context {K : star_ring}.
  Variable C : ci_set K.
  (** the product states *)
  Definition space : model_space K := mkMS (c_nf C) (c_norb C) (fun f u i => civec (c_norb C f) (c_ne C f u) (c_ci C f u i)) (c_ne C) (c_nl C) (c_ur C) (c_nroots C).
  Definition frag_tables (small : K -> bool) (f : nat) : res (@fmats K) :=
    do m <- make_dms (c_norb C f) (c_nu C f) (c_uaddr C f) (c_ne C f) (c_nl C f) (c_ci C f) small ;; Ok (mats_of m).
  Definition frag_ovlp (f b k : nat) : list (list K) := ovlp_of (c_norb C f) (c_ne C f) (c_nl C f) (c_ci C f) (c_ur C f b) (c_ur C f k).
  (** Unique roots in the order of their first rootspaces, states in each of them and in no other, electrons that fit. *)
  Definition roots_ok (f : nat) : Prop := (forall a b, a <= b -> c_uaddr C f a <= c_uaddr C f b) /\
    (forall u, 0 < c_nl C f u <-> u < c_nu C f) /\ (forall u, u < c_nu C f -> fst (c_ne C f u) <= c_norb C f /\ snd (c_ne C f u) <= c_norb C f).
  Definition ci_ok : Prop := 0 < c_nf C <= 8 /\ 0 < c_nroots C /\ (forall f, f < c_nf C -> roots_ok f) /\ (forall f r, f < c_nf C -> r < c_nroots C -> c_ur C f r < c_nu C f).
End Tables.
Definition at_f (f : nat) (x : opr) : opr := (fst x, (f, snd (fst (snd x)), snd (snd x))).
Lemma el_at {K : star_ring} (C : ci_set K) f a b ops : Forall (fun x => opfrag x = 0) ops ->
  el K (c_norb C) (m_vec (space C)) f a b (map (at_f f) ops) = E2 (c_norb C f) (c_ne C f) (c_ci C f) (fst a) (fst b) (snd a) (snd b) ops.
Proof.
  intros H. unfold el, E2, melem2. cbn [space m_vec]. f_equal. induction H as [|[k [[g dn] l]] r Hg _ IH]; [reflexivity|]. cbn in Hg. subst g. cbn [map at_f fst snd lops fold_right] in *. unfold lops in IH. rewrite IH. reflexivity.
Qed.
Ltac atf := rewrite <- el_at by repeat constructor; reflexivity.

(** Every matrix element that the electron numbers allow is in the tables of the fragment, and no check fails. *)
Theorem C64_tables : forall (K : star_ring) (C : ci_set K) (small : K -> bool) (f : nat), (forall x : K, sconj x = x) -> small s0 = true -> roots_ok C f ->
  exists M, frag_tables C small f = Ok M /\ exact K (c_norb C) (m_vec (space C)) (c_ne C) (c_nl C) f M.
Proof.
  intros K C small f Hr Hs (Hu & Hp & Hf). unfold frag_tables.
  destruct (make_dms_ok (c_norb C f) (c_nu C f) (c_uaddr C f) (c_ne C f) (c_nl C f) (c_ci C f) small Hr Hs Hu (fun u => proj2 (Hp u)) Hf) as (m & E & G & D0 & Da & Db). rewrite E. cbn [bind].
  eexists. split; [reflexivity|].
  assert (I : forall a, st_in (c_nl C) f a -> fst a < c_nu C f) by (intros a Ha; apply Hp; unfold st_in in Ha; lia).
  assert (GO : forall t a b, st_in (c_nl C) f a -> st_in (c_nl C) f b -> m t (fst a) (fst b) <> None ->
    exists x, m t (fst a) (fst b) = Some x /\ holds (c_norb C f) (c_ne C f) (c_ci C f) t (fst a) (fst b) (snd a) (snd b) (x (snd a) (snd b))).
  { intros t a b Ha Hb Hne. destruct (m t (fst a) (fst b)) as [x|] eqn:Ex; [|congruence]. exists x. split; [reflexivity|]. apply (G t (fst a) (fst b) x Ex); assumption. }
  split; cbn [mats_of m_h m_hh m_phh m_sm m_dm1 m_dm2].
  - intros s a b Hs2 Ha Hb [F1 F2]. destruct (GO (Th s) a b Ha Hb) as (x & Ex & Hx).
    { destruct s as [|[|s]]; [| |lia]; cbn [Nat.sub] in F1, F2.
      - apply Da; auto; [lia|]. unfold tags_a. assert (H : hop_is (c_ne C f) (fst a) (fst b) (-1) 0 = true) by (apply hop_iff; lia). rewrite H. now left.
      - apply Db; auto; [lia|]. unfold tags_b. assert (H : hop_is (c_ne C f) (fst a) (fst b) 0 (-1) = true) by (apply hop_iff; lia). rewrite H. now left. }
    eexists. rewrite Ex. split; [reflexivity|]. intros p Pp. rewrite (Hx p Pp). atf.
  - intros c a b Hc Ha Hb [F1 F2]. destruct (GO (Thh c) a b Ha Hb) as (x & Ex & Hx).
    { destruct c as [|[|[|c]]]; [| | |lia]; cbn [Nat.sub] in F1, F2.
      - apply Da; auto; [lia|]. unfold tags_a. assert (H : hop_is (c_ne C f) (fst a) (fst b) (-2) 0 = true) by (apply hop_iff; lia). rewrite H.
        assert (H1 : forall y, hop_is (c_ne C f) (fst a) (fst b) (-1) y = false) by (intros y; apply not_true_iff_false; rewrite hop_iff; lia). rewrite !H1. now left.
      - apply Da; auto; [lia|]. unfold tags_a. assert (H : hop_is (c_ne C f) (fst a) (fst b) (-1) (-1) = true) by (apply hop_iff; lia). rewrite H.
        assert (H1 : hop_is (c_ne C f) (fst a) (fst b) (-1) 0 = false) by (apply not_true_iff_false; rewrite hop_iff; lia). assert (H2 : hop_is (c_ne C f) (fst a) (fst b) (-1) 1 = false) by (apply not_true_iff_false; rewrite hop_iff; lia). rewrite H1, H2. now left.
      - apply Db; auto; [lia|]. unfold tags_b. assert (H : hop_is (c_ne C f) (fst a) (fst b) 0 (-2) = true) by (apply hop_iff; lia). rewrite H.
        assert (H1 : hop_is (c_ne C f) (fst a) (fst b) 0 (-1) = false) by (apply not_true_iff_false; rewrite hop_iff; lia). rewrite H1. now left. }
    eexists. rewrite Ex. split; [reflexivity|]. intros p q Pp Pq. rewrite (Hx p q Pp Pq). atf.
  - intros s a b Hs2 Ha Hb [F1 F2]. destruct (GO (Tphh s) a b Ha Hb) as (x & Ex & Hx).
    { destruct s as [|[|s]]; [| |lia]; cbn [Nat.sub] in F1, F2.
      - apply Da; auto; [lia|]. unfold tags_a. assert (H : hop_is (c_ne C f) (fst a) (fst b) (-1) 0 = true) by (apply hop_iff; lia). rewrite H. right. now left.
      - apply Db; auto; [lia|]. unfold tags_b. assert (H : hop_is (c_ne C f) (fst a) (fst b) 0 (-1) = true) by (apply hop_iff; lia). rewrite H. right. now left. }
    eexists. rewrite Ex. split; [reflexivity|]. intros t h p q Ht Ph Pp Pq. rewrite (Hx t h p q Ht Ph Pp Pq). atf.
  - intros a b Ha Hb F1 F2. destruct (GO Tsm a b Ha Hb) as (x & Ex & Hx).
    { apply Da; auto; [lia|]. unfold tags_a. assert (H : hop_is (c_ne C f) (fst a) (fst b) (-1) 1 = true) by (apply hop_iff; lia). rewrite H.
      assert (H1 : hop_is (c_ne C f) (fst a) (fst b) (-1) 0 = false) by (apply not_true_iff_false; rewrite hop_iff; lia). rewrite H1. now left. }
    eexists. rewrite Ex. split; [reflexivity|]. intros p q Pp Pq. rewrite (Hx p q Pp Pq). atf.
  - intros a b Ha Hb Hle F. destruct (GO Tdm1 a b Ha Hb) as (x & Ex & Hx); [apply D0; [split; auto|apply hop_iff; rewrite F; lia|now left]|].
    eexists. rewrite Ex. split; [reflexivity|]. intros s p q Hs2 Pp Pq. rewrite (Hx s p q Hs2 Pp Pq). atf.
  - intros a b Ha Hb Hle F. destruct (GO Tdm2 a b Ha Hb) as (x & Ex & Hx); [apply D0; [split; auto|apply hop_iff; rewrite F; lia|right; now left]|].
    eexists. rewrite Ex. split; [reflexivity|]. intros c p q r u Hc Pp Pq Pr Pu. rewrite (Hx c p q r u Hc Pp Pq Pr Pu). atf.
Qed.
Print Assumptions C64_tables.

(** The overlap tables hold the inner products. *)
Theorem C64_overlap : forall (K : star_ring) (C : ci_set K), gram (space C) (frag_ovlp C).
Proof.
  intros K C f b k Hf Hb Hk. cbn [space m_nl m_ur m_norb m_vec]. unfold frag_ovlp, ovlp_of. set (u := c_ur C f b). set (v := c_ur C f k).
  split; [split; [now rewrite map_length, seq_length|intros row I; apply in_map_iff in I as (i & <- & _); now rewrite map_length, seq_length]|].
  intros i j Hi Hj. unfold mat_at. rewrite (nth_map_seq0 _ (c_nl C f u) i) by exact Hi. rewrite (nth_map_seq0 _ (c_nl C f v) j) by exact Hj.
  destruct (Nat.eqb_spec (fst (c_ne C f u)) (fst (c_ne C f v))) as [E1|E1]; cbn [andb]; [destruct (Nat.eqb_spec (snd (c_ne C f u)) (snd (c_ne C f v))) as [E2'|E2']|].
  - rewrite <- (inner_civec (c_norb C f) (c_ne C f u)). f_equal. f_equal. destruct (c_ne C f u), (c_ne C f v); cbn in *; now subst.
  - symmetry. apply inner_other. intros E. apply E2'. now rewrite E.
  - symmetry. apply inner_other. intros E. apply E1. now rewrite E.
Qed.
Print Assumptions C64_overlap.

(** From CI arrays to transition density matrices: the tables of all fragments are made, then the crunchers run. *)
Definition tables {K : star_ring} (C : ci_set K) (small : K -> bool) : res (list (@fmats K)) := mapM (frag_tables C small) (seq 0 (c_nf C)).
Definition stdm_of_ci {K : star_ring} (C : ci_set K) (half : K) (small big nz : K -> bool) (pyset : list nat -> list nat) : res (nat -> nat -> tix -> K) :=
  do l <- tables C small ;; make_stdm (space C) half big nz pyset (fun f => nth f l (mkFmats (fun _ _ _ => None) (fun _ _ _ => None) (fun _ _ _ => None) (fun _ _ => None) (fun _ _ => None) (fun _ _ => None))) (frag_ovlp C).
Theorem C64_densities_of_ci : forall (K : star_ring) (C : ci_set K) (half : K) (small big nz : K -> bool) (pyset : list nat -> list nat),
  (forall x : K, sconj x = x) -> ci_ok C -> small s0 = true -> set_like pyset ->
  sadd half half = s1 -> nz s0 = false -> (forall v, big v = false -> v = s0) ->
  (forall t, In t (w_tables (space C)) -> collision_free (w_uroot (space C)) t) ->
  exists T, stdm_of_ci C half small big nz pyset = Ok T /\
    forall r e r' e' x, r < c_nroots C -> r' < c_nroots C -> in_range (dims_of (w_lroots (space C)) r) e -> in_range (dims_of (w_lroots (space C)) r') e' -> tix_in (c_nf C) (c_norb C) x ->
      T (states_before (w_lroots (space C)) r + colmajor (dims_of (w_lroots (space C)) r) e) (states_before (w_lroots (space C)) r' + colmajor (dims_of (w_lroots (space C)) r') e') x =
      inner K (2 * norb (c_nf C) (c_norb C)) (product (space C) r e) (gops K (c_nf C) (c_norb C) (xops x) (product (space C) r' e')).
Proof.
  intros K C half small big nz pyset Hr (H8 & Hn & Hok & Hur) Hs Hset Hh Hnz Hb Hcf. unfold stdm_of_ci, tables.
  destruct (mapM_all (frag_tables C small) (fun f M => exact K (c_norb C) (m_vec (space C)) (c_ne C) (c_nl C) f M) (seq 0 (c_nf C))) as (l & E & L & I).
  { intros f Hf. apply in_seq in Hf. apply C64_tables; auto. apply Hok. lia. }
  rewrite E. cbn [bind]. apply (C65_transition_densities K (space C)); auto.
  - split; [exact H8|]. split; [exact Hn|]. cbn [space m_nf m_nl m_ne m_norb m_vec m_ur m_nroots]. split; [|split].
    + intros f r Hf Hr'. apply (Hok f Hf). now apply Hur.
    + intros f a Hf Ha. apply (Hok f Hf). now apply (Hok f Hf).
    + intros f a i Hf Hi. apply civec_nelec.
  - intros f Hf. cbn [space m_nf m_norb m_ne m_nl] in *. rewrite seq_length in I. specialize (I f 0 (mkFmats (fun _ _ _ => None) (fun _ _ _ => None) (fun _ _ _ => None) (fun _ _ => None) (fun _ _ => None) (fun _ _ => None)) Hf). rewrite seq_nth in I by exact Hf. exact I.
  - apply C64_overlap.
  - intros v. now rewrite Hr.
Qed.
Print Assumptions C64_densities_of_ci.

(** A fragment of three orbitals: entries of every kind of matrix, beside the matrix elements of their operators. *)
Definition z_ci (f u i : nat) : mat Qs := fun x y => zq (Z.of_nat ((3 * x * x + 5 * y + 2 * u + 7 * i + f + x * y) mod 11) - 4).
Definition z_eq (x y : Qs) : bool := Qeq_bool (this x) (this y).
Definition z_at (r : res (@arr Qs)) (i : list nat) : Qs := match r with Ok a => a i | Raise _ => zq 12345 end.
Definition z_3 (r : res (@arr Qs * @arr Qs * @arr Qs)) (k : nat) (i : list nat) : Qs := match r with Ok (h, a, b) => (if k =? 0 then h else if k =? 1 then a else b) i | Raise _ => zq 12345 end.
Definition z_rows : list (Qs * Qs * Z) := let u := z_ci 0 0 0 in let v := z_ci 0 1 1 in [
  (z_at (trans_rdm1hs false u v 3 (2, 1) 0 None) [1], elem1 3 (1, 1) (2, 1) u v [an 0 (0, 1)], (13)%Z);
  (z_3 (trans_rdm13hs false u v 3 (2, 2) 1 None) 1 [2; 0; 1], elem1 3 (2, 1) (2, 2) u v [cr 0 (0, 0); an 0 (0, 1); an 1 (0, 2)], (-12)%Z);
  (z_3 (trans_rdm13hs false u v 3 (2, 2) 1 None) 2 [2; 0; 1], elem1 3 (2, 1) (2, 2) u v [cr 1 (0, 0); an 1 (0, 1); an 1 (0, 2)], (-8)%Z);
  (z_3 (trans_rdm13hs true u v 3 (1, 2) 0 None) 2 [0; 2; 1], elem1 3 (2, 2) (1, 2) u v [cr 0 (0, 0); cr 1 (0, 2); an 1 (0, 1)], (-27)%Z);
  (z_at (trans_sfudm1 u v 3 (1, 2) None) [2; 0], elem1 3 (2, 1) (1, 2) u v [cr 0 (0, 2); an 1 (0, 0)], (13)%Z);
  (z_at (trans_sfddm1 u v 3 (1, 2) None) [1; 0], elem1 3 (0, 3) (1, 2) u v [cr 1 (0, 1); an 0 (0, 0)], (-4)%Z);
  (z_at (trans_hhdm u v 3 (2, 1) 0 None) [0; 2], elem1 3 (0, 1) (2, 1) u v [an 0 (0, 0); an 0 (0, 2)], (3)%Z);
  (z_at (trans_hhdm u v 3 (2, 1) 1 None) [0; 2], elem1 3 (1, 0) (2, 1) u v [an 1 (0, 0); an 0 (0, 2)], (-6)%Z);
  (z_at (trans_hhdm u v 3 (1, 2) 2 None) [1; 2], elem1 3 (1, 0) (1, 2) u v [an 1 (0, 1); an 1 (0, 2)], (-8)%Z)].
Example C64_functions_example : forallb (fun t => z_eq (fst (fst t)) (zq (snd t)) && z_eq (snd (fst t)) (zq (snd t))) z_rows = true.
Proof. vm_compute. reflexivity. Qed.

(** CI arrays for the rootspaces of C65_example. *)
Definition z_C : ci_set Qs := mkCI 3 y_norb (fun _ => 4) (fun _ u => u) z_ci y_ne (fun f u => if u <? 4 then y_nl f u else 0) y_ur 5.
Definition z_samples : list Z := [16; 8; 0; -16; 8; -8; 108; -216; 72; 96; -72; -108; 216; 0]%Z.
Example C64_example : ci_ok z_C /\
  match stdm_of_ci z_C hq (fun v => negb (x_big v)) x_big x_big x_set with Raise _ => False | Ok T =>
    forallb (fun c => let '((i, j), x, v) := c in let a := nth i y_states (0, []) in let b := nth j y_states (0, []) in z_eq (T i j x) (zq v) &&
      z_eq (inner Qs 8 (product (space z_C) (fst a) (snd a)) (gops Qs 3 y_norb (xops x) (product (space z_C) (fst b) (snd b)))) (zq v)) (combine (map fst y_samples) z_samples) = true end.
Proof.
  split; [|vm_compute; reflexivity]. split; [cbn; lia|]. split; [cbn; lia|]. split.
  - intros f Hf. split; [intros a b H; exact H|]. cbn [z_C c_nl c_nu c_ne c_norb c_nf] in *. split.
    + intros u. destruct (Nat.ltb_spec u 4); [|lia]. unfold y_nl. destruct (_ && _); lia.
    + intros u Hu. unfold y_ne, y_norb. destruct f as [|[|[|f]]]; [| | |lia]; destruct u as [|[|[|[|u]]]]; cbn; lia.
  - intros f r Hf Hr. cbn [z_C c_ur c_nu c_nf c_nroots] in *. destruct f as [|[|[|f]]]; [| | |lia]; destruct r as [|[|[|[|[|r]]]]]; cbn; lia.
Qed.
