(** One entry of the tables holds the elements between the members of largest m. *)
From Coq Require Import List Bool Arith NArith ZArith Reals Lia Lra.
From Verif Require Import Base Star FockSpec FockFacts FockOps LprodSpec LasFock DetModel DetFacts CrunchModel CrunchSpec HalfSpec HalfModel HalfFacts HalfFun HalfDms LsisUpdModel SmultSpec SmultModel LadderSpec LadderModel LadderStr LadderAng LadderMain PropLadder SpmanModel SpmanBridge SpmanFam SpmanSpec.
Import ListNotations.
Local Open Scope nat_scope.

Lemma mapM_map {A B D} (f : B -> res D) (g : A -> B) l : mapM f (map g l) = mapM (fun x => f (g x)) l.
Proof. induction l as [|x l IH]; [reflexivity|]. cbn [map mapM]. rewrite IH. reflexivity. Qed.
Lemma stack_ok l r c : l <> [] -> (forall x, In x l -> a_r x = r /\ a_c x = c) -> stackable l = true.
Proof.
  destruct l as [|a l]; intros N H; [now elim N|]. cbn [stackable]. apply forallb_forall. intros x Hx. destruct (H a (or_introl eq_refl)) as [-> ->]. destruct (H x (or_intror Hx)) as [-> ->]. rewrite !Nat.eqb_refl. reflexivity.
Qed.
Lemma high_members S' S M' M Q : member S' M' -> member S M -> (M' = M + Q)%Z -> member S (high_ket (S' + 1) (S + 1) Q) /\ member S' (high_bra (S' + 1) (S + 1) Q).
Proof.
  intros [H1 [j1 J1]] [H2 [j2 J2]] E. unfold high_bra, high_ket. replace (S + 1 - 1)%Z with S by lia. replace (S' + 1 - 1)%Z with S' by lia.
  destruct (Z.min_spec S (S' - Q)) as [[L ->]|[L ->]]; split; split; try lia.
  - exists 0%Z. lia.
  - exists ((S' - S - Q) / 2)%Z. assert (X : (S' - S - Q = (j1 - j2) * 2)%Z) by lia. replace (S' - (S + Q))%Z with ((j1 - j2) * 2)%Z by lia. rewrite X, Z.div_mul by lia. lia.
  - exists (j2 - j1)%Z. lia.
  - exists 0%Z. lia.
Qed.

Section Entry.
  Variables (n nu : nat) (uaddr : nat -> nat) (ne : nat -> nat * nat) (nl : nat -> nat) (ci : nat -> nat -> nat -> nat -> R) (smult : nat -> Z) (small : R -> bool).
  Variable psi : nat -> nat -> Z -> vec Rs.
  Hypothesis small0 : small 0%R = true.
  Hypothesis addr_le : forall a b, a <= b -> uaddr a <= uaddr b.
  Hypothesis nl_pos : forall u, u < nu -> 0 < nl u.
  Hypothesis fits : forall u, u < nu -> snd (ne u) <= n.
  Notation S_ u := (smult u - 1)%Z.
  Hypothesis has_m : forall u, u < nu -> member (S_ u) (Mz (ne u)).
  Hypothesis Hpsi : forall u a, u < nu -> a < nl u -> multiplet n (S_ u) (psi u a) /\ veq Rs (2 * n) (ci_state n (ne u) (ci u a)) (psi u a (Mz (ne u))) /\ ~ vec0 n (ci_state n (ne u) (ci u a)).

  Notation civ := (civecs n ne nl ci).
  Definition top (u : nat) : nat * nat := topne (S_ u) (ne u).
  Lemma sm u : (S_ u + 1 = smult u)%Z. Proof. lia. Qed.
  Lemma lift_u u a : u < nu -> a < nl u -> let c := mkA (num_strings n (fst (ne u))) (num_strings n (snd (ne u))) (ci u a) in
    snd (top u) <= fst (top u) <= n /\ S_ u = Mz (top u) /\ fst (top u) + snd (top u) = fst (ne u) + snd (ne u) /\
    exists c', mup1 n (ne u) (smult u) c = Ok c' /\ shaped n (top u) c' /\ veq Rs (2 * n) (ci_state n (top u) (a_el c')) (psi u a (S_ u)) /\
    forall M, member (S_ u) M -> exists cM, mdown1 n (split_nelec (ne u) M) (smult u) c' = Ok cM /\ shaped n (split_nelec (ne u) M) cM /\ veq Rs (2 * n) (ci_state n (split_nelec (ne u) M) (a_el cM)) (psi u a M).
  Proof.
    intros Hu Ha c. destruct (Hpsi u a Hu Ha) as (Hm & He & Hn).
    destruct (lift n (ne u) (S_ u) (psi u a) c Hm (has_m u Hu)) as (T1 & T2 & T3 & c' & E' & Sc & V & D); [split; reflexivity|exact He|exact Hn|exact (fits u Hu)|].
    rewrite sm in E'. fold (top u) in *. split; [exact T1|]. split; [exact T2|]. split; [exact T3|]. exists c'. split; [exact E'|]. split; [exact Sc|]. split; [exact V|]. intros M HM.
    rewrite (split_member (ne u) (S_ u) M (has_m u Hu) HM T3 T2 (proj1 T1)). specialize (D M HM). rewrite sm in D. exact D.
  Qed.
  Lemma images_ok u : u < nu -> exists im, images n ne nl ci smult u = Ok im /\ length im = nl u /\ forall a, a < nl u ->
    shaped n (top u) (nth a im a_empty) /\ veq Rs (2 * n) (ci_state n (top u) (a_el (nth a im a_empty))) (psi u a (S_ u)) /\
    forall M, member (S_ u) M -> exists cM, mdown1 n (split_nelec (ne u) M) (smult u) (nth a im a_empty) = Ok cM /\ shaped n (split_nelec (ne u) M) cM /\ veq Rs (2 * n) (ci_state n (split_nelec (ne u) M) (a_el cM)) (psi u a M).
  Proof.
    intros Hu. unfold images, civecs. rewrite mapM_map.
    destruct (mapM_all (fun x => mup1 n (ne u) (smult u) (mkA (num_strings n (fst (ne u))) (num_strings n (snd (ne u))) (ci u x)))
      (fun a c' => shaped n (top u) c' /\ veq Rs (2 * n) (ci_state n (top u) (a_el c')) (psi u a (S_ u)) /\
        forall M, member (S_ u) M -> exists cM, mdown1 n (split_nelec (ne u) M) (smult u) c' = Ok cM /\ shaped n (split_nelec (ne u) M) cM /\ veq Rs (2 * n) (ci_state n (split_nelec (ne u) M) (a_el cM)) (psi u a M)) (seq 0 (nl u))) as (im & E & L & I).
    - intros a Ha. apply in_seq in Ha. destruct (lift_u u a Hu ltac:(lia)) as (_ & _ & _ & c' & E' & R). exists c'. split; [exact E'|exact R].
    - rewrite seq_length in *. exists im. split; [exact E|]. split; [exact L|]. intros a Ha. specialize (I a 0 a_empty Ha). rewrite seq_nth in I by lia. exact I.
  Qed.
  Lemma highm_ok u M : u < nu -> member (S_ u) M -> exists im d, mup (Many (civ u)) n (ne u) (smult u) = Ok (Many im) /\ mdown (Many im) n (split_nelec (ne u) M) (smult u) = Ok (Many d) /\ length d = nl u /\
    forall a, a < nl u -> veq Rs (2 * n) (ci_state n (split_nelec (ne u) M) (a_el (nth a d a_empty))) (psi u a M).
  Proof.
    intros Hu HM. destruct (images_ok u Hu) as (im & E & L & I). unfold images in E.
    destruct (mapM_all (mdown1 n (split_nelec (ne u) M) (smult u)) (fun _ _ => True) im) as (d & Ed & Ld & _).
    { intros x Hx. apply (In_nth _ _ a_empty) in Hx as (a & Ha & <-). rewrite L in Ha. destruct (I a Ha) as (_ & _ & D). destruct (D M HM) as (cM & Ec & _). exists cM. split; [exact Ec|exact Logic.I]. }
    assert (X : forall a, a < nl u -> shaped n (split_nelec (ne u) M) (nth a d a_empty) /\ veq Rs (2 * n) (ci_state n (split_nelec (ne u) M) (a_el (nth a d a_empty))) (psi u a M)).
    { intros a Ha. destruct (I a Ha) as (_ & _ & D). destruct (D M HM) as (cM & Ec & Sm & Vm). assert (Y : mdown1 n (split_nelec (ne u) M) (smult u) (nth a im a_empty) = Ok (nth a d a_empty)).
      { clear - Ed L Ha. revert a d im L Ed Ha. generalize (nl u). intros k a d im L Ed Ha. rewrite <- L in Ha. clear L. revert a d Ed Ha. induction im as [|x im IH]; intros a d Ed Ha; [inversion Ha|]. cbn [mapM] in Ed. destruct (mdown1 n _ _ x) as [y|] eqn:E1; [|discriminate]. cbn [bind] in Ed. destruct (mapM _ im) as [ys|]; [|discriminate]. injection Ed as <-.
        destruct a as [|a]; [exact E1|]. cbn [nth]. apply IH; [reflexivity|]. cbn [length] in Ha. lia. }
      rewrite Ec in Y. injection Y as Y. rewrite <- Y. split; assumption. }
    exists im, d. pose proof (nl_pos u Hu) as Hp. unfold mup, mdown. cbn [as_list]. unfold civecs in *. rewrite E. cbn [bind like_ci0]. rewrite Ed. cbn [bind like_ci0].
    rewrite (stack_ok im (num_strings n (fst (top u))) (num_strings n (snd (top u)))), (stack_ok d (num_strings n (fst (split_nelec (ne u) M))) (num_strings n (snd (split_nelec (ne u) M)))).
    - split; [reflexivity|]. split; [reflexivity|]. split; [lia|]. intros a Ha. apply (X a Ha).
    - intros ->. cbn in Ld. lia.
    - intros x Hx. apply (In_nth _ _ a_empty) in Hx as (a & Ha & <-). apply (X a). lia.
    - intros ->. cbn in L. lia.
    - intros x Hx. apply (In_nth _ _ a_empty) in Hx as (a & Ha & <-). apply (I a). lia.
  Qed.

  Lemma split_Z u M : u < nu -> member (S_ u) M -> (2 * Z.of_nat (fst (split_nelec (ne u) M)) = Z.of_nat (fst (ne u)) + Z.of_nat (snd (ne u)) + M /\
    2 * Z.of_nat (snd (split_nelec (ne u) M)) = Z.of_nat (fst (ne u)) + Z.of_nat (snd (ne u)) - M)%Z /\ fst (split_nelec (ne u) M) <= n /\ snd (split_nelec (ne u) M) <= n.
  Proof.
    intros Hu HM. destruct (lift_u u 0 Hu (nl_pos u Hu)) as (T1 & T2 & T3 & _). rewrite (split_member (ne u) (S_ u) M (has_m u Hu) HM T3 T2 (proj1 T1)). fold (top u).
    unfold member_nelec. unfold Mz in T2. set (S := S_ u) in *. clearbody S. destruct HM as [H [j Hj]]. replace (S - M)%Z with (j * 2)%Z by lia. rewrite Z.div_mul by lia. cbn [fst snd]. lia.
  Qed.
  Lemma plus_split p q d : p < nu -> q < nu -> (Z.of_nat (fst (ne p)) = Z.of_nat (fst (ne q)) + fst d /\ Z.of_nat (snd (ne p)) = Z.of_nat (snd (ne q)) + snd d)%Z ->
    forall M, member (S_ q) M -> member (S_ p) (M + (fst d - snd d)) -> nelec_plus (split_nelec (ne q) M) d = split_nelec (ne p) (M + (fst d - snd d)).
  Proof.
    intros Hp Hq Hd M Hk Hb. destruct (split_Z q M Hq Hk) as [[Q1 Q2] _]. destruct (split_Z p _ Hp Hb) as [[P1 P2] _]. unfold nelec_plus.
    destruct (split_nelec (ne q) M) as [a b]. destruct (split_nelec (ne p) (M + (fst d - snd d))) as [a' b']. cbn [fst snd] in *. f_equal; lia.
  Qed.
  Lemma plus_ne p q d : (Z.of_nat (fst (ne p)) = Z.of_nat (fst (ne q)) + fst d /\ Z.of_nat (snd (ne p)) = Z.of_nat (snd (ne q)) + snd d)%Z -> nelec_plus (ne q) d = ne p.
  Proof. intros [H1 H2]. unfold nelec_plus. rewrite <- H1, <- H2, !Nat2Z.id. symmetry. apply surjective_pairing. Qed.

  (** the operators in the notation of HalfModel *)
  Definition ops_of (t : tag) (i : list nat) : list opr :=
    match t, i with
    | Th s, [p] => [an s (0, p)]
    | Thh c, [p; q] => [an (c - c / 2) (0, p); an (c / 2) (0, q)]
    | Tphh s, [k; r; p; q] => [cr k (0, p); an k (0, q); an s (0, r)]
    | Tsm, [p; q] => [cr 1 (0, p); an 0 (0, q)]
    | Tdm1, [k; p; q] => xops (X1 k (0, p) (0, q))
    | Tdm2, [c; p; q; r; u] => xops (X2 c (0, p) (0, q) (0, r) (0, u))
    | _, _ => []
    end.
  Ltac idx i H := repeat (destruct i as [|? i]; try (now elim H)).
  Lemma ops_ok t i : index n t i -> Forall (okl n) (ops_of t i).
  Proof.
    intros H. destruct t; cbn [index] in H; idx i H; cbn [ops_of xops]; unfold okl; repeat (apply Forall_cons); try apply Forall_nil; cbn [cr an snd]; tauto.
  Qed.
  Lemma ops_ok0 t i : index n t i -> Forall (ok0 n) (ops_of t i).
  Proof.
    intros H. destruct t; cbn [index] in H; idx i H; cbn [ops_of xops]; unfold ok0; repeat (apply Forall_cons); try apply Forall_nil; cbn [cr an fst snd]; tauto.
  Qed.
  Lemma sops_opn t i v : index n t i -> sops n (ops_of t i) v = opn n t i v.
  Proof.
    intros H. destruct t; cbn [index] in H; idx i H; try reflexivity. destruct s as [|[|[|s]]]; [reflexivity|reflexivity|reflexivity|lia].
  Qed.
  Lemma holds_ix nb cx t b k i j T ix : index n t ix -> @holds Rs n nb cx t b k i j T -> T ix = @E2 Rs n nb cx b k i j (ops_of t ix).
  Proof.
    intros H. destruct t; cbn [index] in H; idx ix H; cbn [holds ops_of]; intros X; apply X; tauto.
  Qed.
  Lemma dn_adds t i : index n t i -> dnelec t = adds t.
  Proof. intros H. destruct t; cbn [index] in H; idx i H; try reflexivity; destruct s as [|[|[|s]]]; reflexivity || lia. Qed.

  Definition dsp (t : tag) : Z := (fst (adds t) - snd (adds t))%Z.
  Lemma entry_ok t p q i0 : index n t i0 -> p < nu -> q < nu -> (Z.of_nat (fst (ne p)) = Z.of_nat (fst (ne q)) + fst (adds t) /\ Z.of_nat (snd (ne p)) = Z.of_nat (snd (ne q)) + snd (adds t))%Z -> (t = Tdm1 \/ t = Tdm2 -> q <= p) ->
    exists x, entry n uaddr ne nl ci smult small t p q = Ok x /\ forall a b i, a < nl p -> b < nl q -> index n t i ->
      x a b i = inner Rs (2 * n) (psi p a (high_bra (smult p) (smult q) (dsp t))) (opn n t i (psi q b (high_ket (smult p) (smult q) (dsp t)))).
  Proof.
    intros Hi0 Hp Hq Hd Hdm. assert (EM : (Mz (ne p) = Mz (ne q) + dsp t)%Z) by (unfold Mz, dsp; lia).
    destruct (high_members (S_ p) (S_ q) (Mz (ne p)) (Mz (ne q)) (dsp t) (has_m p Hp) (has_m q Hq) EM) as [HK HB]. rewrite !sm in HK, HB.
    set (hk := high_ket (smult p) (smult q) (dsp t)) in *. set (hb := high_bra (smult p) (smult q) (dsp t)) in *. assert (EH : hb = (hk + dsp t)%Z) by reflexivity.
    destruct (highm_ok p hb Hp HB) as (imp & dp & U1 & D1 & L1 & V1). destruct (highm_ok q hk Hq HK) as (imq & dq & U2 & D2 & L2 & V2).
    unfold entry, get_highm_civecs. rewrite (dn_adds t i0 Hi0). rewrite (plus_ne p q (adds t) Hd), U1, U2. cbn [bind]. fold (dsp t). fold hk hb. rewrite D1, D2. cbn [bind as_list].
    pose proof (split_Z q hk Hq HK) as [ZQ FQ]. pose proof (split_Z p hb Hp HB) as [ZP FP].
    assert (EP : nelec_plus (split_nelec (ne q) hk) (adds t) = split_nelec (ne p) hb) by (rewrite EH; apply plus_split; auto; rewrite EH in HB; exact HB). rewrite EP, L1, L2. cbv zeta.
    set (ne' := fun u : nat => match u with 0 => split_nelec (ne q) hk | Datatypes.S _ => split_nelec (ne p) hb end).
    set (nl' := fun u : nat => match u with 0 => nl q | Datatypes.S _ => nl p end). set (ua' := fun u : nat => match u with 0 => uaddr q | Datatypes.S _ => uaddr p end).
    set (ci' := fun (u i : nat) => a_el (nth i (match u with 0 => dq | Datatypes.S _ => dp end) a_empty)).
    assert (NP : forall u, u < 2 -> 0 < nl' u) by (intros [|u] _; cbn; apply nl_pos; assumption).
    assert (FT : forall u, u < 2 -> fst (ne' u) <= n /\ snd (ne' u) <= n) by (intros [|u] _; cbn; assumption).
    assert (HH : forall x y, x = fst (adds t) -> y = snd (adds t) -> hop_is ne' 1 0 x y = true).
    { intros x y -> ->. apply hop_iff. cbn [ne']. unfold dsp in EH. lia. }
    assert (G0 : @good Rs n ne' nl' ci' (fun _ _ _ => None)) by (intros ? ? ? ? X; discriminate X).
    assert (F : exists m, fill n small t 1 0 ne' nl' ua' ci' (fun _ _ _ => None) = Ok m /\ @good Rs n ne' nl' ci' m /\ m t 1 0 <> None).
    { assert (W : forall f ts, In t ts -> @does Rs n ne' nl' ci' f 1 0 ts -> exists m, f (fun _ _ _ => None) = Ok m /\ @good Rs n ne' nl' ci' m /\ m t 1 0 <> None).
      { intros f ts Ht D. destruct (D _ G0) as (m & Em & Gm & _ & X). exists m. split; [exact Em|]. split; [exact Gm|apply X, Ht]. }
      destruct t as [| |s|s| |s]; cbn [fill]; cbn [index] in Hi0; cbn [adds dn fst snd] in HH.
      - apply (W _ [Tdm1; Tdm2]); [left; reflexivity|]. apply (@does_dm Rs n ua' ne' nl' ci'); [|lia|apply HH; reflexivity]. intros [|a] [|b] L; cbn; auto; try lia; apply addr_le, Hdm; auto.
      - apply (W _ [Tdm1; Tdm2]); [right; left; reflexivity|]. apply (@does_dm Rs n ua' ne' nl' ci'); [|lia|apply HH; reflexivity]. intros [|a] [|b] L; cbn; auto; try lia; apply addr_le, Hdm; auto.
      - apply (W _ [Th s; Tphh s]); [left; reflexivity|]. idx i0 Hi0. apply (@does_h Rs n 2 ne' nl' ci' small); auto; [tauto|]. apply HH; unfold dn; destruct (s =? 0); reflexivity.
      - apply (W _ [Th s; Tphh s]); [right; left; reflexivity|]. idx i0 Hi0. apply (@does_h Rs n 2 ne' nl' ci' small); auto; [tauto|]. apply HH; unfold dn; destruct (s =? 0); reflexivity.
      - apply (W _ [Tsm]); [left; reflexivity|]. apply (@does_sm Rs n ne' nl' ci'); auto.
      - apply (W _ [Thh s]); [left; reflexivity|]. idx i0 Hi0. apply (@does_hh Rs n ne' nl' ci'); auto; tauto. }
    destruct F as (m & Em & Gm & Hm). match goal with |- context [bind ?r _] => assert (Em' : r = Ok m) by exact Em; rewrite Em'; clear Em' end. cbn [bind].
    destruct (m t 1 0) as [x|] eqn:Ex; [|now elim Hm]. exists x. split; [reflexivity|]. intros a b i Ha Hb Hi.
    pose proof (Gm t 1 0 x Ex a b Ha Hb) as X. rewrite (holds_ix ne' ci' t 1 0 a b (x a b) i Hi X). unfold E2. rewrite bridge by (apply ops_ok; exact Hi).
    rewrite <- (sops_opn t i) by exact Hi. apply inner_ext; [exact (V1 a Ha)|]. apply sops_ext; [apply ops_ok; exact Hi|exact (V2 b Hb)].
  Qed.
End Entry.
