(** Theorems about the Hamiltonian with spin-orbit coupling when all rootspaces have the same numbers of electrons of each spin (property C78). *)
From Coq Require Import List NArith ZArith Arith Bool Lia Ring Sorting.Permutation QArith Qcanon.
From Verif Require Import Base BaseFacts Star AddrModel AddrSpec SCModel FockSpec FockFacts FockOps LprodSpec SignsModel SignsFacts LasSigns LasFock LasElem ExcModel UexcModel PropUexc StdmModel StdmFacts PropStdm PropSC PropLsis.
From Verif Require Import CrunchModel CrunchSpec CrunchEnd PropCrunch HamModel HamSum HamVals HamLoop HamSpec HamEnd HamOps PropHam ScatterModel ScatterFacts PropScatter HalfSpec HalfModel HalfFacts HalfDms PropHalf.
From Verif Require Import TransModel SpinlessModel SpinlessProd PropSpinless SocModel SocFacts PropSoc.
Import ListNotations.
Close Scope Qc_scope. Close Scope Q_scope.
Local Open Scope nat_scope.

(** ** An operator that flips a spin has no elements between states with the same numbers of electrons of each spin *)
Section Flip.
  Lemma sum_of_nat (g : nat -> nat) l : Z.of_nat (list_sum (map g l)) = sumZ (map (fun f => Z.of_nat (g f)) l).
  Proof. induction l as [|x l IH]; [reflexivity|]. change (Z.of_nat (g x + list_sum (map g l)) = (Z.of_nat (g x) + sumZ (map (fun f => Z.of_nat (g f)) l))%Z). lia. Qed.
  Lemma sumZ_add (a b : nat -> Z) l : sumZ (map (fun f => a f + b f)%Z l) = (sumZ (map a l) + sumZ (map b l))%Z.
  Proof. induction l as [|x l IH]; [reflexivity|]. cbn [map sumZ]. lia. Qed.
  Lemma sumZ_at g (z : Z) m : forall a, sumZ (map (fun f => if g =? f then z else 0%Z) (seq a m)) = if (a <=? g) && (g <? a + m) then z else 0%Z.
  Proof.
    induction m as [|m IH]; intros a; cbn [seq map sumZ].
    - destruct (Nat.leb_spec a g), (Nat.ltb_spec g (a + 0)); cbn [andb]; lia.
    - rewrite IH. destruct (Nat.eqb_spec g a), (Nat.leb_spec (Datatypes.S a) g), (Nat.ltb_spec g (Datatypes.S a + m)), (Nat.leb_spec a g), (Nat.ltb_spec g (a + Datatypes.S m)); cbn [andb]; lia.
  Qed.
  Variables (nf : nat) (n : nat -> nat).
  Lemma gain_total dn (ops : list opr) : Forall (okop nf n) ops -> sumZ (map (fun f => gain f dn ops) (seq 0 nf)) = sumZ (map (fun x : opr => if Bool.eqb dn (snd (fst (snd x))) then kz (fst x) else 0%Z) ops).
  Proof.
    induction 1 as [|[k [[g dn'] y]] ops [Hg _] _ IH].
    - cbn [map sumZ]. generalize (seq 0 nf). induction l as [|f l IHl]; [reflexivity|]. cbn [map sumZ]. rewrite IHl. reflexivity.
    - cbn [map sumZ fst snd]. rewrite <- IH. rewrite (map_ext (fun f => gain f dn ((k, (g, dn', y)) :: ops)) (fun f => (if (g =? f)%nat then if Bool.eqb dn dn' then kz k else 0 else 0) + gain f dn ops)%Z).
      + rewrite sumZ_add, sumZ_at. destruct (Nat.ltb_spec g (0 + nf)); [|lia]. reflexivity.
      + intros f. rewrite gain_cons. destruct (g =? f); reflexivity.
  Qed.
  Variable K : star_ring.
  Lemma flip_zero (u v : nat -> vec K) (nu nv : nat -> nat * nat) f x g y dn : (forall f, f < nf -> has_nelec K (n f) (nu f) (u f)) -> (forall f, f < nf -> has_nelec K (n f) (nv f) (v f)) ->
    list_sum (map (fun f => fst (nu f)) (seq 0 nf)) = list_sum (map (fun f => fst (nv f)) (seq 0 nf)) ->
    let ops := [(true, (f, dn, x)); (false, (g, negb dn, y))] in Forall (okop nf n) ops -> elem nf n K u v ops = s0.
  Proof.
    intros Hu Hv E ops Ho. rewrite (elem_factor nf n K u nu v nv ops Hu Hv Ho).
    set (bad := fun f => negb (Z.of_nat (fst (nu f)) =? Z.of_nat (fst (nv f)) + gain f false ops)%Z). destruct (existsb bad (seq 0 nf)) eqn:B.
    - apply existsb_exists in B as (h & Ih & B). rewrite (bprod_zero K _ _ h Ih); [apply SocFacts.sg_0|]. apply in_seq in Ih. apply (floc_zero nf n K u nu v nv ops h); [lia|apply Hu; lia|apply Hv; lia|exact Ho|]. intros Q. injection Q as Q _. unfold bad in B. rewrite <- Q, Z.eqb_refl in B. discriminate.
    - exfalso. assert (A : forall h, In h (seq 0 nf) -> Z.of_nat (fst (nu h)) = (Z.of_nat (fst (nv h)) + gain h false ops)%Z).
      { intros h Ih. destruct (bad h) eqn:Bh; [|unfold bad in Bh; apply negb_false_iff, Z.eqb_eq in Bh; exact Bh]. assert (existsb bad (seq 0 nf) = true) by (apply existsb_exists; exists h; auto). congruence. }
      apply (f_equal Z.of_nat) in E. rewrite !sum_of_nat in E. rewrite (map_ext_in _ _ _ A), sumZ_add, (gain_total false ops Ho) in E. unfold ops in E. cbn [map sumZ fst snd] in E. destruct dn; cbn [negb Bool.eqb kz] in E; lia.
  Qed.
End Flip.

Section Pure.
  Variables (K : star_ring) (C : ci_set K).
  Local Notation P := (space C).
  Local Notation nf := (c_nf C).
  Local Notation n := (c_norb C).
  Local Notation N := (norb nf n).
  Local Notation l := (w_nlas (space C)).
  Local Notation o := (flat_orb l).
  Add Ring Kr : (sring K).
  Lemma len_l : length l = nf.
  Proof. unfold w_nlas. now rewrite map_length, seq_length. Qed.
  Lemma nth_l f : f < nf -> nth f l 0 = n f.
  Proof. intros Hf. unfold w_nlas. cbn [space m_nf m_norb]. rewrite (nth_indep _ 0 (n 0)) by (rewrite map_length, seq_length; exact Hf). now rewrite map_nth, seq_nth. Qed.
  Lemma flat_locate i : i < N -> o (locate l i) = i.
  Proof. intros Hi. destruct (locate_spec l i Hi) as (_ & _ & E). symmetry. exact E. Qed.
  Lemma locate_perm : Permutation (map (locate l) (seq 0 N)) (HamSum.orbs nf n).
  Proof.
    apply NoDup_Permutation.
    - apply nodup_map_in; [|apply seq_NoDup]. intros i j Hi Hj. apply in_seq in Hi, Hj. apply locate_inj; change (list_sum l) with N; lia.
    - apply HamOps.orbs_nodup.
    - intros p. rewrite in_orbs, in_map_iff. split.
      + intros (i & <- & Hi). apply in_seq in Hi. exact (proj1 (w_loc P i (proj2 Hi))).
      + intros [Hf Hx]. destruct p as [f x]. cbn [fst snd] in *. destruct (locate_off l f x) as [G1 G2]; [rewrite len_l; exact Hf|rewrite nth_l by exact Hf; exact Hx|]. exists (list_sum (firstn f l) + x). split; [exact G2|apply in_seq; split; [lia|exact G1]].
  Qed.
  Variables (half : K) (h1 : nat -> nat -> K) (h2 : nat -> nat -> nat -> nat -> K).
  Hypothesis H1 : hermitian h1.
  Hypothesis H2 : real_symmetric h2.
  Local Notation g1 := (fun s p q => pure_h1 h1 (list_sum l) s (o p) (o q)).
  Local Notation g2 := (fun p q r u => h2 (o p) (o q) (o r) (o u)).
  Local Notation el r e r' e' x := (inner K (2 * N) (product P r e) (gops K nf n (xops x) (product P r' e'))).
  Lemma el_flip r e r' e' i j : total_nelec nf (nelec_frs C) r = total_nelec nf (nelec_frs C) r' -> i < 2 * N -> j < 2 * N -> same_spin N i j = false ->
    inner K (2 * N) (product P r e) (cre K (2 * N) (spin_major N i) (ann K (2 * N) (spin_major N j) (product P r' e'))) = s0.
  Proof.
    intros Ht Hi Hj Hs. destruct (orig_ok K C i Hi true) as (I1 & _ & I3). destruct (orig_ok K C j Hj false) as (J1 & _ & J3).
    rewrite <- I3, <- J3. assert (D : down (j / N) = negb (down (i / N))).
    { assert (Di : i / N < 2) by (apply Nat.div_lt_upper_bound; lia). assert (Dj : j / N < 2) by (apply Nat.div_lt_upper_bound; lia).
      assert (G : forall a, a < 2 * N -> (a <? N) = negb (down (a / N))).
      { intros a Ha. destruct (Nat.ltb_spec a N) as [L|L]; [rewrite Nat.div_small by exact L; reflexivity|]. assert (a / N <> 0) by (intros Z0; apply Nat.div_small_iff in Z0; lia). unfold down. rewrite (proj2 (Nat.eqb_neq _ 0)) by assumption. reflexivity. }
      unfold same_spin in Hs. rewrite !G in Hs by assumption. destruct (down (i / N)), (down (j / N)); cbn in *; congruence. }
    unfold orig in J1. rewrite D in *.
    apply (flip_zero nf n K (fun f => m_vec P f (m_ur P f r) (nth f e 0)) (fun f => m_vec P f (m_ur P f r') (nth f e' 0)) (fun f => nelec_frs C f r) (fun f => nelec_frs C f r') _ _ _ _ (down (i / N))).
    - intros f _. apply civec_nelec.
    - intros f _. apply civec_nelec.
    - injection Ht as E _. exact E.
    - constructor; [exact I1|constructor; [exact J1|constructor]].
  Qed.
  Lemma loc_spo i s : i < N -> s < 2 -> gorb nf n (fst (locate l i)) (down s) (snd (locate l i)) = spo N s i.
  Proof. intros Hi Hs. exact (proj2 (w_loc P i Hi) s Hs). Qed.
  Lemma el_X1 r e r' e' s i j : s < 2 -> i < N -> j < N -> el r e r' e' (X1 s (locate l i) (locate l j)) = inner K (2 * N) (product P r e) (cre K (2 * N) (spo N s i) (ann K (2 * N) (spo N s j) (product P r' e'))).
  Proof. intros Hs Hi Hj. rewrite <- (loc_spo i s Hi Hs), <- (loc_spo j s Hj Hs). reflexivity. Qed.
  Lemma el_X2 r e r' e' b i j k m : b < 4 -> i < N -> j < N -> k < N -> m < N -> el r e r' e' (X2 b (locate l i) (locate l j) (locate l k) (locate l m)) =
    inner K (2 * N) (product P r e) (cre K (2 * N) (spo N (b / 2) i) (cre K (2 * N) (spo N (b mod 2) k) (ann K (2 * N) (spo N (b mod 2) m) (ann K (2 * N) (spo N (b / 2) j) (product P r' e'))))).
  Proof.
    intros Hb Hi Hj Hk Hm. assert (S1 : b / 2 < 2) by (apply Nat.div_lt_upper_bound; lia). assert (S2 : b mod 2 < 2) by (apply Nat.mod_upper_bound; lia).
    rewrite <- (loc_spo i _ Hi S1), <- (loc_spo j _ Hj S1), <- (loc_spo k _ Hk S2), <- (loc_spo m _ Hm S2). reflexivity.
  Qed.
  Lemma gsum_pure r e r' e' : total_nelec nf (nelec_frs C) r = total_nelec nf (nelec_frs C) r' ->
    gsum nf n (fun x => smul (hx K half g1 g2 x) (el r e r' e' x)) = soc_element N half (fun i j => sconj (h1 i j)) h2 (product P r e) (product P r' e').
  Proof.
    intros Ht. assert (Re : forall F : nat * nat -> K, bsum (HamSum.orbs nf n) F = bsum (seq 0 N) (fun i => F (locate l i))) by (intros F; rewrite <- (bsum_perm K _ _ F locate_perm); apply bsum_map).
    unfold soc_element, gsum, gsum1, gsum2. f_equal.
    - transitivity (bsum (seq 0 (2 * N)) (fun i => bsum (seq 0 (2 * N)) (fun j => if same_spin N i j then smul (sconj (h1 i j)) (inner K (2 * N) (product P r e) (cre K (2 * N) (spin_major N i) (ann K (2 * N) (spin_major N j) (product P r' e')))) else s0))).
      + rewrite sum_pairs. apply bsum_ext. intros s Is. apply in_seq in Is. rewrite Re. apply bsum_ext. intros i Ii. apply in_seq in Ii. rewrite Re. apply bsum_ext. intros j Ij. apply in_seq in Ij.
        rewrite el_X1 by lia. destruct (spo_major K C s i) as [_ ->]; [lia|lia|]. destruct (spo_major K C s j) as [_ ->]; [lia|lia|]. cbn [hx]. unfold pure_h1. rewrite !flat_locate by lia. change (list_sum l) with N. destruct s as [|[|s]]; [| |lia]; cbn [Nat.eqb Nat.mul Nat.add]; rewrite ?Nat.add_0_r, H1; reflexivity.
      + apply bsum_ext. intros i Ii. apply in_seq in Ii. apply bsum_ext. intros j Ij. apply in_seq in Ij. destruct (same_spin N i j) eqn:Q; [reflexivity|]. rewrite el_flip by (assumption || lia). ring.
    - set (T := fun s p q t v u => smul (smul half (h2 p q v u)) (inner K (2 * N) (product P r e) (cre K (2 * N) (spo N s p) (cre K (2 * N) (spo N t v) (ann K (2 * N) (spo N t u) (ann K (2 * N) (spo N s q) (product P r' e'))))))).
      transitivity (bsum (seq 0 4) (fun b => bsum (seq 0 N) (fun p => bsum (seq 0 N) (fun q => bsum (seq 0 N) (fun v => bsum (seq 0 N) (fun u => T (b / 2) p q (b mod 2) v u)))))).
      + apply bsum_ext. intros b Ib. apply in_seq in Ib. rewrite Re. apply bsum_ext. intros p Ip. apply in_seq in Ip. rewrite Re. apply bsum_ext. intros q Iq. apply in_seq in Iq. rewrite Re. apply bsum_ext. intros v Iv. apply in_seq in Iv. rewrite Re. apply bsum_ext. intros u Iu. apply in_seq in Iu.
        rewrite el_X2 by lia. cbn [hx]. rewrite !flat_locate by lia. unfold T. now rewrite (proj1 (proj2 H2)).
      + assert (Sw : forall s, bsum (seq 0 N) (fun p => bsum (seq 0 N) (fun q => bsum (seq 0 2) (fun t => bsum (seq 0 N) (fun v => bsum (seq 0 N) (fun u => T s p q t v u))))) =
          bsum (seq 0 2) (fun t => bsum (seq 0 N) (fun p => bsum (seq 0 N) (fun q => bsum (seq 0 N) (fun v => bsum (seq 0 N) (fun u => T s p q t v u)))))).
        { intros s. transitivity (bsum (seq 0 N) (fun p => bsum (seq 0 2) (fun t => bsum (seq 0 N) (fun q => bsum (seq 0 N) (fun v => bsum (seq 0 N) (fun u => T s p q t v u)))))); [apply bsum_ext; intros p _; apply bsum_swap|apply bsum_swap]. }
        change (bsum (seq 0 2) (fun s => bsum (seq 0 N) (fun p => bsum (seq 0 N) (fun q => bsum (seq 0 2) (fun t => bsum (seq 0 N) (fun v => bsum (seq 0 N) (fun u => smul (smul half (h2 p q v u)) (inner K (2 * N) (product P r e) (cre K (2 * N) (spo N s p) (cre K (2 * N) (spo N t v) (ann K (2 * N) (spo N t u) (ann K (2 * N) (spo N s q) (product P r' e')))))))))))))
          with (bsum (seq 0 2) (fun s => bsum (seq 0 N) (fun p => bsum (seq 0 N) (fun q => bsum (seq 0 2) (fun t => bsum (seq 0 N) (fun v => bsum (seq 0 N) (fun u => T s p q t v u))))))).
        rewrite (bsum_ext K (seq 0 2) _ _ (fun s _ => Sw s)). cbn [seq bsum]. change (0 / 2) with 0. change (1 / 2) with 0. change (2 / 2) with 1. change (3 / 2) with 1. change (0 mod 2) with 0. change (1 mod 2) with 1. change (2 mod 2) with 0. change (3 mod 2) with 1. ring.
  Qed.
End Pure.

(** When all rootspaces have the same numbers of electrons of each spin, the blocks of the one-electron integrals between different spins, which
    are dropped, do not matter. *)
Theorem C78_soc_pure : forall (K : star_ring) (C : ci_set K) (ptr : nat -> nat -> nat) (half : K) (big : K -> bool) (pyset : list nat -> list nat) (ints : nat -> @fmats K) (ovlp : nat -> nat -> nat -> list (list K))
    (hash : list Z -> Z) (h1 : nat -> nat -> K) (h2 : nat -> nat -> nat -> nat -> K), let P := space C in
  proper P -> (forall f, f < m_nf P -> exact K (m_norb P) (m_vec P) (m_ne P) (m_nl P) f (ints f)) -> gram P ovlp -> set_like pyset ->
  sadd half half = s1 -> (forall v, big v = false -> v = s0) -> (forall v, big (sconj v) = big v) ->
  (forall t, In t (w_tables P) -> collision_free (w_uroot P) t) -> hash_injective P hash -> hermitian h1 -> real_symmetric h2 ->
  (forall r r', r < c_nroots C -> r' < c_nroots C -> total_nelec (c_nf C) (nelec_frs C) r = total_nelec (c_nf C) (nelec_frs C) r') ->
  exists ham s2, soc_ham C ptr half big pyset ints ovlp hash h1 h2 = Ok (ham, s2) /\
    forall r e r' e', r < c_nroots C -> r' < c_nroots C -> in_range (dims_of (w_lroots P) r) e -> in_range (dims_of (w_lroots P) r') e' ->
      ham (number P r e) (number P r' e') = soc_element (norb (c_nf C) (c_norb C)) half (fun i j => sconj (h1 i j)) h2 (product P r e) (product P r' e').
Proof.
  intros K C ptr half big pyset ints ovlp hash h1 h2 P Pp Hex Hg Hset Hhalf Hbig Hbc Hcf Hh H1 (Hp & Ht & Hr) Hpure.
  set (o := flat_orb (w_nlas P)). set (g1 := fun s p q => pure_h1 h1 (list_sum (w_nlas P)) s (o p) (o q)). set (g2 := fun p q r u => h2 (o p) (o q) (o r) (o u)).
  destruct (both K P half big pyset ints ovlp hash g1 g2) as ([ham s2] & E & V); try assumption.
  - intros p q r u. apply Hp.
  - intros p q r u. apply Ht.
  - assert (Q : is_spin_pure (c_nf C) (c_nroots C) (nelec_frs C) = true).
    { unfold is_spin_pure. apply andb_true_iff. split; [apply Nat.ltb_lt; apply Pp|]. apply forallb_forall. intros r Ir. apply in_seq in Ir. rewrite (Hpure r 0) by lia. unfold same_ne. now rewrite !Nat.eqb_refl. }
    exists ham, s2. split; [unfold soc_ham; rewrite Q; exact E|]. intros r e r' e' Lr Lr' R R'. destruct (V r e r' e' Lr Lr' R R') as [V1 _]. cbn [fst] in V1.
    transitivity (gsum (m_nf P) (m_norb P) (fun x => smul (hx K half g1 g2 x) (inner K (2 * norb (m_nf P) (m_norb P)) (product P r e) (gops K (m_nf P) (m_norb P) (xops x) (product P r' e'))))).
    + apply V1. intros [s p q|b p q v u]; cbn [hx tix_tr].
      * unfold g1, pure_h1. destruct (s =? 0); apply H1.
      * rewrite sconj_mul, (half_real K half Hhalf). f_equal. unfold g2. now rewrite Hr, Ht.
    + apply (gsum_pure K C half h1 h2 H1 (conj Hp (conj Ht Hr)) r e r' e'). now apply Hpure.
Qed.
Print Assumptions C78_soc_pure.

(** Both cases in real arithmetic, from the CI vectors of the fragments. *)
Theorem C78_soc_of_ci : forall (K : star_ring) (C : ci_set K) (ptr : nat -> nat -> nat) (half : K) (small big : K -> bool) (pyset : list nat -> list nat) (hash : list Z -> Z)
    (h1 : nat -> nat -> K) (h2 : nat -> nat -> nat -> nat -> K),
  (forall x : K, sconj x = x) -> ci_ok C -> well_shared C ptr -> first_roots C -> small s0 = true -> set_like pyset -> sadd half half = s1 -> (forall v, big v = false -> v = s0) ->
  (forall P, P = space C \/ P = space (spinless_ci C ptr) -> (forall t, In t (w_tables P) -> collision_free (w_uroot P) t) /\ hash_injective P hash) -> hermitian h1 -> real_symmetric h2 ->
  exists ham s2, soc_ham_of_ci C ptr half small big pyset hash h1 h2 = Ok (ham, s2) /\
    forall r e r' e', r < c_nroots C -> r' < c_nroots C -> in_range (dims_of (w_lroots (space C)) r) e -> in_range (dims_of (w_lroots (space C)) r') e' ->
      ham (number (space C) r e) (number (space C) r' e') = soc_element (norb (c_nf C) (c_norb C)) half h1 h2 (product (space C) r e) (product (space C) r' e').
Proof.
  intros K C ptr half small big pyset hash h1 h2 Hreal Hci Hsh Hfr Hs Hset Hhalf Hbig Hc H1 H2. destruct (is_spin_pure (c_nf C) (c_nroots C) (nelec_frs C)) eqn:Hpure.
  - destruct (Hc _ (or_introl eq_refl)) as [Hcf Hh]. destruct (tables_fine K C small Hreal Hs Hci) as (Pp & Hg & l & E & Hex).
    unfold soc_ham_of_ci. rewrite Hpure, E. cbn [bind].
    destruct (C78_soc_pure K C ptr half big pyset (fun f => nth f l no_mats) (frag_ovlp C) hash h1 h2) as (ham & s2 & E' & V); try assumption; [intros v; now rewrite Hreal| |].
    + unfold is_spin_pure in Hpure. apply andb_true_iff in Hpure as [_ F]. rewrite forallb_forall in F.
      assert (G : forall r, r < c_nroots C -> total_nelec (c_nf C) (nelec_frs C) r = total_nelec (c_nf C) (nelec_frs C) 0).
      { intros r Hr. assert (I : In r (seq 0 (c_nroots C))) by (apply in_seq; lia). apply F in I. unfold same_ne in I. apply andb_true_iff in I as [A B]. apply Nat.eqb_eq in A, B. destruct (total_nelec (c_nf C) (nelec_frs C) r), (total_nelec (c_nf C) (nelec_frs C) 0). cbn [fst snd] in *. congruence. }
      intros r r' Hr Hr'. now rewrite (G r Hr), (G r' Hr').
    + exists ham, s2. split; [exact E'|]. intros r e r' e' Hr Hr' R R'. rewrite V by assumption. apply soc_element_ext. intros i j. apply Hreal.
  - destruct (Hc _ (or_intror eq_refl)) as [Hcf Hh]. now apply C78_mixed_of_ci.
Qed.
Print Assumptions C78_soc_of_ci.

(** Two fragments of one orbital, three rootspaces with one electron of each spin *)
Definition pu_ne (f u : nat) : nat * nat := nth u (nth f [[(1, 0); (0, 1); (1, 1)]; [(0, 1); (1, 0); (0, 0)]] []) (0, 0).
Definition pu_C : ci_set Qs := mkCI 2 (fun f => 1) (fun _ => 3) (fun _ u => Nat.min u 3) sp_ci pu_ne (fun f u => if u <? 3 then 1 else 0) (fun _ r => r) 3.
Definition pu_ptr (f r : nat) : nat := 10 * f + r.
Definition pu_mat : list (list Z) := [[8; 96; 50]; [96; 720; 120]; [50; 120; 0]]%Z.
Definition pu_out := soc_ham_of_ci pu_C pu_ptr hq (fun v => negb (x_big v)) x_big c_set y_hash so_h1 so_h2.
Definition pu_state (i : nat) : vec Qs := product (space pu_C) i [0; 0].
Example C78_pure_example : ci_ok pu_C /\ well_shared pu_C pu_ptr /\ first_roots pu_C /\ is_spin_pure 2 3 (nelec_frs pu_C) = true /\
  match pu_out with Ok (h, _) => forallb (fun i => forallb (fun j => z_eq (h i j) (zq (nth j (nth i pu_mat []) 0%Z))) (seq 0 3)) (seq 0 3) | Raise _ => false end = true /\
  forallb (fun i => forallb (fun j => z_eq (soc_element 2 hq so_h1 so_h2 (pu_state i) (pu_state j)) (zq (nth j (nth i pu_mat []) 0%Z))) (seq 0 3)) (seq 0 3) = true.
Proof.
  split; [|split; [|split; [|split; [vm_compute; reflexivity|split; vm_compute; reflexivity]]]].
  - split; [cbn; lia|]. split; [cbn; lia|]. cbn [pu_C c_nf c_nroots c_ur c_nu]. split.
    + intros f Hf. split; [|split].
      * intros a b H. cbn [pu_C c_uaddr]. lia.
      * intros u. cbn [pu_C c_nl c_nu]. destruct (Nat.ltb_spec u 3); lia.
      * intros u Hu. cbn [pu_C c_ne c_norb c_nu] in *. unfold pu_ne. destruct f as [|[|f]]; [| |lia]; destruct u as [|[|[|u]]]; cbn; lia.
    + intros f r Hf Hr. exact Hr.
  - intros f r f' r' Hf Hr Hf' Hr' E. cbn [pu_C c_nf c_nroots] in *. unfold pu_ptr in E. assert (f = f') by lia. subst f'. assert (r = r') by lia. subst r'. auto.
  - intros f u Hf Hu. cbn [pu_C c_nf c_nroots c_ur c_nu c_uaddr] in *. lia.
Qed.
