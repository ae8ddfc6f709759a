(** C74: contract_sladder applies S- or S+ to a CI array, mdown and mup walk through the multiplet (model: LadderModel). *)
From Coq Require Import List Bool Arith NArith ZArith Reals Lia Lra.
From Verif Require Import Base Star FockSpec DetModel DetFacts HalfSpec LsisUpdModel SmultSpec SmultAlg SmultComm LadderSpec LadderModel LadderStr LadderFock LadderAng LadderMain.
Import ListNotations.
Local Open Scope R_scope.

(** a CI array of the right shape *)
Definition ci_array (n : nat) (ne : nat * nat) (c : arr2) : Prop := a_r c = length (strs n (fst ne)) /\ a_c c = length (strs n (snd ne)).
Definition norm2 (n : nat) (v : vec Rs) : R := inner Rs (2 * n) v v.
Definition vec0 (n : nat) (v : vec Rs) : Prop := veq Rs (2 * n) v (fun _ => 0).
Lemma ci_shaped n ne c : ci_array n ne c <-> shaped n ne c.
Proof. unfold ci_array, shaped. rewrite !strs_length. reflexivity. Qed.

(** S- takes an electron from spin up to spin down, S+ the other way; without a spin-up electron or a free spin-down orbital S- gives
    zero, and the code an empty array *)
Theorem C74_sdown : forall n na nb c, ci_array n (na, nb) c ->
  exists c1, contract_sladder c n (na, nb) false = Ok c1 /\
    ((1 <= na)%nat /\ nb <> n -> ci_array n (na - 1, nb + 1)%nat c1 /\ veq Rs (2 * n) (ci_state n (na - 1, nb + 1)%nat (a_el c1)) (Sminus Rs n (ci_state n (na, nb) (a_el c)))) /\
    (na = 0%nat \/ nb = n -> a_r c1 = 0%nat /\ a_c c1 = 0%nat /\ vec0 n (Sminus Rs n (ci_state n (na, nb) (a_el c)))).
Proof.
  intros n na nb c H. apply ci_shaped in H as [H1 H2]. destruct (contract_spec c n (na, nb) false H1 H2) as (c1 & E & X). exists c1. split; [exact E|]. split.
  - intros [A B]. assert (V : vacuum n (na, nb) false = false) by (unfold vacuum; cbn [fst snd]; apply orb_false_iff; split; apply Nat.eqb_neq; lia). rewrite V in X. destruct X as (R1 & R2 & _).
    split; [apply ci_shaped; split; [exact R1|exact R2]|]. intros e _. exact (contract_fock c n (na, nb) false c1 H1 H2 E V e).
  - intros A. assert (V : vacuum n (na, nb) false = true) by (unfold vacuum; cbn [fst snd]; apply orb_true_iff; rewrite !Nat.eqb_eq; exact A). rewrite V in X. destruct X as [R1 R2].
    split; [exact R1|]. split; [exact R2|]. intros e _. exact (vacuum_fock n (na, nb) false (a_el c) e V).
Qed.
Theorem C74_sup : forall n na nb c, ci_array n (na, nb) c ->
  exists c1, contract_sladder c n (na, nb) true = Ok c1 /\
    ((1 <= nb)%nat /\ na <> n -> ci_array n (na + 1, nb - 1)%nat c1 /\ veq Rs (2 * n) (ci_state n (na + 1, nb - 1)%nat (a_el c1)) (Splus Rs n (ci_state n (na, nb) (a_el c)))) /\
    (nb = 0%nat \/ na = n -> a_r c1 = 0%nat /\ a_c c1 = 0%nat /\ vec0 n (Splus Rs n (ci_state n (na, nb) (a_el c)))).
Proof.
  intros n na nb c H. apply ci_shaped in H as [H1 H2]. destruct (contract_spec c n (na, nb) true H1 H2) as (c1 & E & X). exists c1. split; [exact E|]. split.
  - intros [A B]. assert (V : vacuum n (na, nb) true = false) by (unfold vacuum; cbn [fst snd]; apply orb_false_iff; split; apply Nat.eqb_neq; lia). rewrite V in X. destruct X as (R1 & R2 & _).
    split; [apply ci_shaped; split; [exact R1|exact R2]|]. intros e _. exact (contract_fock c n (na, nb) true c1 H1 H2 E V e).
  - intros A. assert (V : vacuum n (na, nb) true = true) by (unfold vacuum; cbn [fst snd]; apply orb_true_iff; rewrite !Nat.eqb_eq; tauto). rewrite V in X. destruct X as [R1 R2].
    split; [exact R1|]. split; [exact R2|]. intros e _. exact (vacuum_fock n (na, nb) true (a_el c) e V).
Qed.

Lemma undiv (q x : R) : 0 < q -> x = q * (x / q).
Proof. intros H. field. lra. Qed.

Section Family.
  Variables (n na nb : nat) (S : Z) (c0 : arr2).
  Hypothesis (Hab : (nb <= na <= n)%nat) (HS : S = (Z.of_nat na - Z.of_nat nb)%Z) (Hs : shaped n (na, nb) c0) (Hp : spin_pure n S (ci_state n (na, nb) (a_el c0))).
  Notation neM := (member_nelec (na, nb) S).
  Definition fam (M : Z) : arr2 := match mdown1 n (neM M) (S + 1) c0 with Ok c => c | Raise _ => c0 end.
  Lemma fam_ne M : member S M -> let j := Z.to_nat ((S - M) / 2) in neM M = (na - j, nb + j)%nat /\ (S - M = 2 * Z.of_nat j)%Z /\ (j <= na)%nat /\ (nb + j <= n)%nat /\ Mz (neM M) = M /\ n_steps (S + 1) (neM M) = j /\ topne S (neM M) = (na, nb).
  Proof.
    intros [H [i Hi]] j. assert (Ej : (S - M = 2 * Z.of_nat j)%Z) by (unfold j; rewrite Hi, (Z.mul_comm 2), Z.div_mul by lia; lia).
    assert (E : neM M = (na - j, nb + j)%nat) by reflexivity. assert (MM : Mz (neM M) = M) by (rewrite E; unfold Mz; cbn [fst snd]; lia).
    assert (EN : n_steps (S + 1) (neM M) = j) by (unfold n_steps; fold (Mz (neM M)); rewrite MM; replace (S + 1 - 1 - M)%Z with (Z.of_nat j * 2)%Z by lia; rewrite Z.div_mul by lia; lia).
    repeat split; auto; try lia. unfold topne. rewrite EN, E. cbn [fst snd]. f_equal; lia.
  Qed.
  Lemma fam_ok M : member S M -> mdown1 n (neM M) (S + 1) c0 = Ok (fam M) /\ shaped n (neM M) (fam M) /\ spin_pure n S (ci_state n (neM M) (a_el (fam M))) /\
    inner Rs (2 * n) (ci_state n (neM M) (a_el (fam M))) (ci_state n (neM M) (a_el (fam M))) = inner Rs (2 * n) (ci_state n (na, nb) (a_el c0)) (ci_state n (na, nb) (a_el c0)) /\
    exists c3, mup1 n (neM M) (S + 1) (fam M) = Ok c3 /\ shaped n (na, nb) c3 /\ veq Rs (2 * n) (ci_state n (na, nb) (a_el c3)) (ci_state n (na, nb) (a_el c0)).
  Proof.
    intros HM. destruct (fam_ne M HM) as (E & Ej & J1 & J2 & MM & EN & ET). set (j := Z.to_nat ((S - M) / 2)) in *.
    destruct (mdown_main n S j (neM M) c0 EN) as (c & Ec & Sc & P & I & B).
    - rewrite MM. exact HM.
    - rewrite E. cbn [snd]. lia.
    - rewrite E. cbn [snd]. lia.
    - rewrite ET. cbn [fst]. lia.
    - rewrite ET. exact Hs.
    - rewrite ET. exact Hp.
    - rewrite ET in *. assert (F : fam M = c) by (unfold fam; rewrite Ec; reflexivity). rewrite F. repeat split; auto; try (apply Sc). apply B; [exact Sc|intros e _; reflexivity].
  Qed.
  Lemma fam_step M : member S M -> (- S < M)%Z -> (forall e, ci_state n (neM (M - 2)) (a_el (fam (M - 2))) e = nlad n false S M (ci_state n (neM M) (a_el (fam M))) e) /\
    veq Rs (2 * n) (nlad n true S (M - 2) (ci_state n (neM (M - 2)) (a_el (fam (M - 2))))) (ci_state n (neM M) (a_el (fam M))).
  Proof.
    intros HM HL. assert (HM2 : member S (M - 2)) by (destruct HM as [HM [i Hi]]; split; [lia|exists (i + 1)%Z; lia]).
    destruct (fam_ok M HM) as (E & Sh & P & _). destruct (fam_ok (M - 2) HM2) as (E2 & _). destruct (fam_ne M HM) as (N & Ej & J1 & J2 & MM & EN & ET).
    destruct (fam_ne (M - 2) HM2) as (N2 & Ej2 & J12 & J22 & MM2 & EN2 & ET2). set (j := Z.to_nat ((S - M) / 2)) in *. set (j2 := Z.to_nat ((S - (M - 2)) / 2)) in *.
    assert (H1 : (1 <= snd (neM (M - 2)))%nat) by (rewrite N2; cbn [snd]; lia). assert (EU : upne (neM (M - 2)) = neM M) by (rewrite N, N2; unfold upne; cbn [fst snd]; f_equal; lia).
    rewrite (mdown_S n S (neM (M - 2)) j c0 H1) in E2 by (rewrite EN2; lia). rewrite EU, E in E2. cbn [bind] in E2.
    assert (Hv : vacuum n (neM M) false = false) by (rewrite <- EU; apply vac_dn; [exact H1|rewrite N2; cbn [snd]; lia]).
    assert (Hq : 0 < sq_lad false S (Mz (neM M))) by (rewrite MM; apply sq_dn_pos; destruct HM; lia).
    destruct (step_ok false n S (neM M) (fam M) Sh Hv Hq) as (c1 & E1 & S1 & N1). rewrite E1 in E2. injection E2 as E2.
    assert (EN1 : ne1 (neM M) false = neM (M - 2)) by (rewrite <- EU; apply ne1_dn; exact H1). rewrite EN1, E2 in N1. rewrite MM in N1. split; [exact N1|].
    destruct (nlad_step n false (neM M) S (a_el (fam M)) (ci_state n (neM (M - 2)) (a_el (fam (M - 2)))) Hv P Hq) as (_ & _ & B); [rewrite MM; exact N1|]. rewrite MM in B. exact B.
  Qed.
  Lemma fam_multiplet : multiplet n S (fun M => ci_state n (neM M) (a_el (fam M))).
  Proof.
    intros M HM. destruct (fam_ok M HM) as (_ & _ & P & _). destruct (fam_ne M HM) as (_ & _ & _ & _ & MM & _). split.
    - destruct (Z.eq_dec M (- S)) as [E|E].
      + assert (Q : sq_lad false S M = 0) by (unfold sq_lad, sq_dn; rewrite E; unfold hf; rewrite opp_IZR; field). intros e He.
        rewrite <- MM in Q at 1. pose proof (end_0 n false (neM M) S (a_el (fam M)) P Q e He) as Z0. rewrite MM in Q. unfold lad in Z0. rewrite Z0. unfold sq_lad, sq_dn in Q. unfold down. rewrite Q, sqrt_0. rring.
      + assert (L : (- S < M)%Z) by (destruct HM; lia). destruct (fam_step M HM L) as [X _]. intros e He. rewrite X. unfold nlad, lad. pose proof (sqrt_lt_R0 _ (sq_dn_pos S M ltac:(destruct HM; lia))) as Hq. unfold down. unfold sq_lad, sq_dn in *. exact (undiv _ _ Hq).
    - destruct (Z.eq_dec M S) as [E|E].
      + assert (Q : sq_lad true S M = 0) by (unfold sq_lad, sq_up; rewrite E; ring). intros e He.
        rewrite <- MM in Q at 1. pose proof (end_0 n true (neM M) S (a_el (fam M)) P Q e He) as Z0. rewrite MM in Q. unfold lad in Z0. rewrite Z0. unfold sq_lad, sq_up in Q. unfold up. rewrite Q, sqrt_0. rring.
      + assert (L : (M + 2 <= S)%Z) by (destruct HM as [HM [i Hi]]; lia). assert (HM2 : member S (M + 2)) by (destruct HM as [HM [i Hi]]; split; [lia|exists (i - 1)%Z; lia]).
        destruct (fam_step (M + 2) HM2 ltac:(destruct HM; lia)) as [_ X]. replace (M + 2 - 2)%Z with M in X by lia. intros e He. rewrite <- (X e He). unfold nlad, lad.
        pose proof (sqrt_lt_R0 _ (sq_up_pos S M ltac:(destruct HM; lia))) as Hq. unfold up. unfold sq_lad, sq_up in *. exact (undiv _ _ Hq).
  Qed.
End Family.

(** from the member m = s with spin s, mdown makes all members of a multiplet, of the same norm; mup leads back *)
Theorem C74_mdown : forall n na nb S c0, (nb <= na <= n)%nat -> S = (Z.of_nat na - Z.of_nat nb)%Z -> ci_array n (na, nb) c0 -> spin_pure n S (ci_state n (na, nb) (a_el c0)) ->
  exists f : Z -> arr2,
    (forall M, member S M -> let ne := member_nelec (na, nb) S M in
       mdown (One c0) n ne (S + 1) = Ok (One (f M)) /\ ci_array n ne (f M) /\ spin_pure n S (ci_state n ne (a_el (f M))) /\
       norm2 n (ci_state n ne (a_el (f M))) = norm2 n (ci_state n (na, nb) (a_el c0)) /\
       exists c', mup (One (f M)) n ne (S + 1) = Ok (One c') /\ ci_array n (na, nb) c' /\ veq Rs (2 * n) (ci_state n (na, nb) (a_el c')) (ci_state n (na, nb) (a_el c0))) /\
    multiplet n S (fun M => ci_state n (member_nelec (na, nb) S M) (a_el (f M))).
Proof.
  intros n na nb S c0 Hab HS Hs Hp. apply ci_shaped in Hs. exists (fam n na nb S c0). split; [|apply fam_multiplet; assumption].
  intros M HM ne. destruct (fam_ok n na nb S c0 Hab HS Hs Hp M HM) as (E & Sh & P & I & c3 & E3 & S3 & V3). fold ne in E, Sh, P, I, E3.
  unfold mdown, mup. cbn [as_list mapM bind]. rewrite E, E3. cbn [bind like_ci0]. split; [reflexivity|]. split; [apply ci_shaped; exact Sh|]. split; [exact P|]. split; [exact I|].
  exists c3. split; [reflexivity|]. split; [apply ci_shaped; exact S3|exact V3].
Qed.

(** from any member that is not zero mup reaches m = s, and mdown leads back *)
Theorem C74_mup : forall n na nb S c, (nb <= n)%nat -> member S (Z.of_nat na - Z.of_nat nb) -> ci_array n (na, nb) c ->
  spin_pure n S (ci_state n (na, nb) (a_el c)) -> ~ vec0 n (ci_state n (na, nb) (a_el c)) ->
  exists k c', (Z.of_nat na - Z.of_nat nb + 2 * Z.of_nat k = S)%Z /\ (k <= nb)%nat /\
    mup (One c) n (na, nb) (S + 1) = Ok (One c') /\ let ne := (na + k, nb - k)%nat in
    ci_array n ne c' /\ spin_pure n S (ci_state n ne (a_el c')) /\ norm2 n (ci_state n ne (a_el c')) = norm2 n (ci_state n (na, nb) (a_el c)) /\
    vec0 n (Splus Rs n (ci_state n ne (a_el c'))) /\
    exists c'', mdown (One c') n (na, nb) (S + 1) = Ok (One c'') /\ ci_array n (na, nb) c'' /\ veq Rs (2 * n) (ci_state n (na, nb) (a_el c'')) (ci_state n (na, nb) (a_el c)).
Proof.
  intros n na nb S c Hnb HM Hs Hp Hn. apply ci_shaped in Hs. pose proof (steps_member S (na, nb) HM) as HK. set (k := n_steps (S + 1) (na, nb)) in *.
  destruct (mup_main n S k (na, nb) c eq_refl HM Hs Hp Hn Hnb) as (Hk & c' & E & Sc & P & I & c'' & E2 & S2 & V2). exists k, c'. unfold Mz in HK. cbn [fst snd] in *.
  change (topne S (na, nb)) with (na + k, nb - k)%nat in *.
  split; [exact HK|]. split; [exact Hk|]. unfold mup, mdown. cbn [as_list mapM bind]. rewrite E, E2. cbn [bind like_ci0].
  split; [reflexivity|]. split; [apply ci_shaped; exact Sc|]. split; [exact P|]. split; [exact I|]. split; [|exists c''; split; [reflexivity|split; [apply ci_shaped; exact S2|exact V2]]].
  apply (end_0 n true (na + k, nb - k)%nat S (a_el c') P). assert (MM : Mz (na + k, nb - k)%nat = S) by (unfold Mz; cbn [fst snd]; lia). rewrite MM. unfold sq_lad, sq_up. ring.
Qed.

(** several vectors are treated one by one *)
Theorem C74_list : forall up n ne smult l l', let g := if up : bool then mup else mdown in
  Forall2 (fun c c' => g (One c) n ne smult = Ok (One c') /\ ci_array n ne c') l l' -> l <> [] -> g (Many l) n ne smult = Ok (Many l').
Proof.
  intros up n ne smult l l' g H Hl. set (h := if up then mup1 n ne smult else mdown1 n ne smult).
  assert (G1 : forall c c', g (One c) n ne smult = Ok (One c') -> h c = Ok c').
  { intros c c'. unfold g, h. destruct up; unfold mup, mdown; cbn [as_list mapM bind]; [destruct (mup1 n ne smult c)|destruct (mdown1 n ne smult c)]; cbn [bind like_ci0]; congruence. }
  assert (EM : mapM h l = Ok l') by (clear Hl; induction H as [|c c' l l' [H _] _ IH]; [reflexivity|]; cbn [mapM]; rewrite (G1 _ _ H); cbn [bind]; rewrite IH; reflexivity).
  assert (ES : stackable l' = true).
  { destruct H as [|c c' l l' [_ [H1 H2]] H]; [now elim Hl|]. cbn [stackable]. apply forallb_forall. intros x Hx. clear - H H1 H2 Hx. induction H as [|c1 c2 l1 l2 [_ [Q1 Q2]] _ IH]; [contradiction|]. destruct Hx as [<-|Hx]; [|apply IH; exact Hx]. rewrite Q1, Q2, H1, H2, !Nat.eqb_refl. reflexivity. }
  unfold g, h in *. destruct up; unfold mup, mdown; cbn [as_list]; rewrite EM; cbn [bind like_ci0]; rewrite ES; reflexivity.
Qed.

(** from 2m = 2s on, also for 2m > 2s, where there is no such member, both return the vector they got *)
Theorem C74_above : forall n na nb smult c, (smult - 1 <= Z.of_nat na - Z.of_nat nb)%Z ->
  mdown (One c) n (na, nb) smult = Ok (One c) /\ mup (One c) n (na, nb) smult = Ok (One c).
Proof.
  intros n na nb smult c H. assert (E : n_steps smult (na, nb) = 0%nat).
  { unfold n_steps. cbn [fst snd]. assert ((smult - 1 - (Z.of_nat na - Z.of_nat nb)) / 2 <= 0)%Z by (apply (Z.div_le_upper_bound _ 2 0); lia). lia. }
  unfold mdown, mup, mdown1, mup1. rewrite E. cbn. split; reflexivity.
Qed.

(** two electrons in two orbitals: the triplet *)
Example C74_example : let c0 := mkA 1 1 (fun _ _ => 1) in
  spin_pure 2 2 (ci_state 2 (2, 0)%nat (a_el c0)) /\ norm2 2 (ci_state 2 (2, 0)%nat (a_el c0)) = 1 /\
  exists c, mdown (One c0) 2 (1, 1)%nat 3 = Ok (One c) /\ a_el c 1 0 = / sqrt 2 /\ a_el c 0 1 = - / sqrt 2 /\ a_el c 0 0 = 0 /\ a_el c 1 1 = 0.
Proof.
  intros c0. split; [|split].
  - apply (pure_lad 2 true (2, 0)%nat 2 _ (ci_carries 2 (2, 0)%nat _)). intros e He. cbn [negb].
    rewrite (lad_v 2 false _ (fun d => 0 * ci_state 2 (2, 0)%nat (a_el c0) d)) by (intros d; rewrite (vacuum_fock 2 (2, 0)%nat true (a_el c0) d eq_refl); rring).
    rewrite lad_mul. unfold sq_lad, sq_up, Mz, hf. cbn [fst snd Z.of_nat]. match goal with |- ?a = ?b => change (@eq R a b) end. cbn. lra.
  - unfold norm2, inner, dets. cbn -[IZR]. unfold ci_state, bits. cbn -[IZR]. lra.
  - unfold mdown. cbn [as_list mapM bind]. unfold mdown1, n_steps. cbn [fst snd Z.of_nat]. change (Z.to_nat _) with 1%nat. cbn [seq rev app foldR]. unfold shifted. cbn [fst snd Nat.leb Nat.add Nat.sub bind].
    unfold contract_sladder, reshape2. cbn [a_r a_c c0 num_strings Nat.mul Nat.add Nat.eqb bind orb].
    unfold norm_sdown, half_sqrt. cbn [fst snd]. change ((3 - 1 - (Z.of_nat 2 - Z.of_nat 0) + 2) * (3 - 1 + (Z.of_nat 2 - Z.of_nat 0)))%Z with 8%Z. cbn [Z.ltb Z.compare bind]. unfold div2.
    replace (8 / 4) with 2 by lra. pose proof (sqrt_lt_R0 2 ltac:(lra)) as Hq. destruct (Req_EM_T (sqrt 2) 0) as [Z|_]; [lra|]. eexists. split; [reflexivity|]. cbn. unfold add_at. cbn. repeat split; field; lra.
Qed.

Print Assumptions C74_sdown.
Print Assumptions C74_sup.
Print Assumptions C74_mdown.
Print Assumptions C74_mup.
Print Assumptions C74_list.
Print Assumptions C74_above.
