(** Looking up the tables: from the members of largest m to those asked for, and from one root of a spin manifold to another. *)
From Coq Require Import List Bool Arith NArith ZArith Reals Lia Lra.
From Verif Require Import Base Star FockSpec FockFacts FockOps LprodSpec LasFock DetModel DetFacts CrunchModel CrunchSpec CrunchFacts HalfSpec HalfModel HalfFacts HalfFun HalfInner HalfDms LsisUpdModel SmultSpec SmultAlg SmultComm SmultModel PropSmult LadderSpec LadderModel LadderStr LadderAng LadderMain PropLadder UrootModel UrootFacts PropUroot SpmanModel SpmanBridge SpmanFam SpmanSpec SpmanEntry.
Import ListNotations.
Local Open Scope nat_scope.

(** ** mdown *)
Ltac idx i H := repeat (destruct i as [|? i]; try (now elim H)).
Lemma phh_ext tr (x x' y y' : nat -> num) S2 M k : In tr [tr_phh_0; tr_phh_1; tr_phh_2; tr_phh_3] -> (forall k, k < 2 -> x k = x' k) -> (forall k, k < 2 -> y k = y' k) -> tr S2 M x y k = tr S2 M x' y' k.
Proof.
  intros H X Y. destruct H as [<-|[<-|[<-|[<-|[]]]]]; [unfold tr_phh_0|unfold tr_phh_1|unfold tr_phh_2|unfold tr_phh_3]; cbv zeta; rewrite ?(X 0), ?(X 1), ?(Y 0), ?(Y 1) by lia; reflexivity.
Qed.
Lemma dm1_ext (x x' y y' : nat -> num) S2 M k : (forall k, k < 2 -> x k = x' k) -> tr_dm1_0 S2 M x y k = tr_dm1_0 S2 M x' y' k.
Proof. intros X. unfold tr_dm1_0. cbv zeta. rewrite ?(X 0), ?(X 1) by lia. reflexivity. Qed.
Lemma dm2_ext tr (x x' y y' : nat -> num) S2 M k : In tr [tr_dm2_0; tr_dm2_1] -> (forall k, k < 4 -> x k = x' k) -> (forall k, k < 4 -> y k = y' k) -> tr S2 M x y k = tr S2 M x' y' k.
Proof.
  intros H X Y. destruct H as [<-|[<-|[]]]; [unfold tr_dm2_0|unfold tr_dm2_1]; cbv zeta; rewrite ?(X 0), ?(X 1), ?(X 2), ?(X 3), ?(Y 0), ?(Y 1), ?(Y 2), ?(Y 3) by lia; reflexivity.
Qed.
Section Mdown.
  Variables (n : nat) (S' S : Z) (psi' psi : Z -> vec Rs) (M : Z) (t : HalfModel.tag) (x : list nat -> R).
  Hypothesis (Hb : multiplet n S' psi') (Hk : multiplet n S psi) (HM : member S M) (HM' : member S' (M + dsp t)).
  Hypothesis Hx : forall i, index n t i -> x i = inner Rs (2 * n) (psi' (high_bra (S' + 1) (S + 1) (dsp t))) (opn n t i (psi (high_ket (S' + 1) (S + 1) (dsp t)))).
  Lemma mdown_ok i : index n t i -> mdown_tdm t x (S' + 1) (S + 1) M i = Some (inner Rs (2 * n) (psi' (M + dsp t)%Z) (opn n t i (psi M))).
  Proof.
    intros Hi. destruct t as [| |s|s| |s]; cbn [index] in Hi; idx i Hi; cbn [mdown_tdm nth].
    - assert (D : dsp Tdm1 = 0%Z) by reflexivity. rewrite D, Z.add_0_r in *. destruct Hi as (K1 & K2 & K3). etransitivity; [|exact (C73_dm1 n S' S psi' psi M _ _ _ Hb Hk K1 K2 K3 HM HM')]. unfold mdown_dm1. cbv zeta.
      assert (X : forall k, k < 2 -> x [k; n1; n2] = at_high S' S 0 (el_dm1 n psi' psi k n1 n2)) by (intros k Hk'; rewrite Hx by (cbn; tauto); reflexivity).
      destruct (- Z.abs (S' + 1 - (S + 1)))%Z; try (rewrite X by assumption; reflexivity). apply dm1_ext. intros k Hk'. rewrite X by assumption. reflexivity.
    - assert (D : dsp Tdm2 = 0%Z) by reflexivity. rewrite D, Z.add_0_r in *. destruct Hi as (K1 & K2 & K3 & K4 & K5). etransitivity; [|exact (C73_dm2 n S' S psi' psi M _ _ _ _ _ Hb Hk K1 K2 K3 K4 K5 HM HM')]. unfold mdown_dm2. cbv zeta.
      assert (X : forall k p q r u, k < 4 -> p < n -> q < n -> r < n -> u < n -> x [k; p; q; r; u] = at_high S' S 0 (el_dm2 n psi' psi k p q r u)) by (intros; rewrite Hx by (cbn; tauto); reflexivity).
      destruct (- Z.abs (S' + 1 - (S + 1)))%Z as [|z|[z|[z|z|]|]]; try (rewrite X by assumption; reflexivity); (apply dm2_ext; [cbn; tauto| |]); intros k Hk'; rewrite X by assumption; reflexivity.
    - destruct Hi as (K1 & K2). assert (D : dsp (HalfModel.Th s) = two_m [PropSmult.dn s] []) by (destruct s as [|[|]]; [reflexivity|reflexivity|lia]). rewrite D in *.
      etransitivity; [|exact (C73_h n S' S psi' psi M s _ Hb Hk K1 K2 HM HM')]. unfold mdown_h. rewrite Hx by (cbn; tauto). reflexivity.
    - destruct Hi as (K1 & K2 & K3 & K4 & K5). assert (D : dsp (Tphh s) = two_m [PropSmult.dn n0; PropSmult.dn s] [PropSmult.dn n0]) by (destruct s as [|[|]]; [| |lia]; destruct n0 as [|[|]]; [reflexivity|reflexivity|lia|reflexivity|reflexivity|lia]). rewrite D in *.
      etransitivity; [|exact (C73_phh n S' S psi' psi M s _ _ _ _ Hb Hk K1 K2 K3 K4 K5 HM HM')]. unfold mdown_phh. cbv zeta.
      assert (X : forall k p q r, k < 2 -> p < n -> q < n -> r < n -> x [k; p; q; r] = at_high S' S (two_m [PropSmult.dn n0; PropSmult.dn s] [PropSmult.dn n0]) (el_phh n psi' psi s k p q r)) by (intros; rewrite Hx by (cbn; tauto); reflexivity).
      destruct (S' + 1 - (S + 1))%Z as [|[z|z|]|[z|z|]]; try (rewrite X by assumption; reflexivity); (destruct s as [|[|]]; [| |lia]; (apply phh_ext; [cbn; tauto| |]); intros k Hk'; rewrite X by assumption; reflexivity).
    - destruct Hi as (K1 & K2). assert (D : dsp HalfModel.Tsm = two_m [false] [true]) by reflexivity. rewrite D in *.
      etransitivity; [|exact (C73_sm n S' S psi' psi M _ _ Hb Hk K1 K2 HM HM')]. unfold mdown_sm. rewrite Hx by (cbn; tauto). reflexivity.
    - destruct Hi as (K1 & K2 & K3). assert (D : dsp (HalfModel.Thh s) = two_m [(1 <=? s)%nat; (2 <=? s)%nat] []) by (destruct s as [|[|[|]]]; [reflexivity|reflexivity|reflexivity|lia]). rewrite D in *.
      etransitivity; [|exact (C73_hh n S' S psi' psi M s _ _ Hb Hk K1 K2 K3 HM HM')]. unfold mdown_hh. cbv zeta.
      assert (X : forall p q, p < n -> q < n -> x [p; q] = at_high S' S (two_m [(1 <=? s)%nat; (2 <=? s)%nat] []) (el_hh n psi' psi s p q)) by (intros; rewrite Hx by (cbn; tauto); reflexivity).
      rewrite !X by assumption. reflexivity.
  Qed.
End Mdown.

(** ** overlaps within multiplets do not depend on m; those of different spins are zero *)
Lemma ovl_comm n S' S psi' psi : multiplet n S' psi' -> multiplet n S psi -> forall M' M, member S' M' -> member S M ->
  (up S' M' * inner Rs (2 * n) (psi' (M' + 2)%Z) (psi M) = down S M * inner Rs (2 * n) (psi' M') (psi (M - 2)%Z))%R.
Proof.
  intros Hb Hk M' M HM' HM. destruct (Hb M' HM') as [_ U]. destruct (Hk M HM) as [D _].
  pose proof (inner_scale_l n (psi' (M' + 2)%Z) (psi M) (up S' M')) as E1. pose proof (inner_scale_r n (psi' M') (psi (M - 2)%Z) (down S M)) as E2. cbn [smul Rs] in E1, E2. etransitivity; [symmetry; exact E1|]. etransitivity; [|exact E2].
  transitivity (inner Rs (2 * n) (Splus Rs n (psi' M')) (psi M)); [apply (inner_ext Rs); [intros d Hd; symmetry; exact (U d Hd)|intros d _; reflexivity]|].
  transitivity (inner Rs (2 * n) (psi' M') (Sminus Rs n (psi M))); [symmetry; exact (lad_adj n false _ _)|]. apply (inner_ext Rs); [intros d _; reflexivity|exact D].
Qed.
Lemma ovl_const n S' S psi' psi M1 M2 : multiplet n S' psi' -> multiplet n S psi -> member S' M1 -> member S M1 -> member S' M2 -> member S M2 ->
  inner Rs (2 * n) (psi' M1) (psi M1) = inner Rs (2 * n) (psi' M2) (psi M2).
Proof.
  intros Hb Hk A1 A2 B1 B2. pose proof (ovl_comm n S' S psi' psi Hb Hk) as C. destruct (Z.eq_dec S' S) as [->|N].
  - destruct (ladder 0 0 S (fun M' M => inner Rs (2 * n) (psi' M') (psi M))) as [c Hc].
    + replace (S + Z.of_nat 0 - Z.of_nat 0)%Z with S by lia. exact C.
    + cbv beta in Hc. replace (S + Z.of_nat 0 - Z.of_nat 0)%Z with S in Hc by lia. pose proof (Hc M1 A2) as E1. pose proof (Hc M2 B2) as E2. replace (M1 - (Z.of_nat 0 + Z.of_nat 0))%Z with M1 in E1 by lia. replace (M2 - (Z.of_nat 0 + Z.of_nat 0))%Z with M2 in E2 by lia.
      rewrite (E1 A1), (E2 B1). reflexivity.
  - pose proof (select S' S 0 (fun M' M => inner Rs (2 * n) (psi' M') (psi M)) ltac:(lia) ltac:(lia) C) as Z. cbv beta in Z. pose proof (Z M1 A2) as E1. pose proof (Z M2 B2) as E2. rewrite Z.sub_0_r in E1, E2. rewrite (E1 A1), (E2 B1). reflexivity.
Qed.

(** ** spin manifolds *)
Lemma spman_ovl d ovl m k : let U := spman true d ovl m in U k <> k -> ovl (U k) k = true /\ U (U k) = U k /\ U k < k.
Proof.
  cbv zeta. cbn [spman]. unfold spin_manifolds. pose proof (sm_inv_holds d ovl m) as I.
  assert (P : forall k, snd (snd (fold_left (sm_step ovl) (pairs m) (exclude0 d m, (fun _ => true, fun k => k)))) k <> k -> ovl (snd (snd (fold_left (sm_step ovl) (pairs m) (exclude0 d m, (fun _ => true, fun k => k)))) k) k = true).
  { apply (fold_inv _ (fun _ st => forall k, snd (snd st) k <> k -> ovl (snd (snd st) k) k = true)).
    - intros k'. cbn. congruence.
    - intros l1 [i j] l2 [E [R U]] Ep H k'. unfold sm_step. destruct (E i j); [apply H|]. destruct (R i); [|apply H]. destruct (R j); [|apply H]. cbn [negb]. destruct (ovl i j) eqn:Eo; [|apply H]. cbn [snd].
      unfold aset. destruct (Nat.eqb_spec k' j) as [->|]; [intros _; exact Eo|apply H]. }
  specialize (P k). destruct (fold_left _ _ _) as [E [R U]]. destruct I as (_ & _ & I3 & I4 & _ & _ & I7). cbn [snd] in *. intros H. split; [apply P, H|]. split; [|apply I4, H].
  specialize (I7 k). rewrite I3 in I7. apply Nat.eqb_eq in I7. exact I7.
Qed.
