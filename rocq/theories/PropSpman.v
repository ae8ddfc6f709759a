(** C75: when spin multiplicities are known the tables of a fragment hold the matrix elements of the CI vectors it was given, although
    they are made between other members of the multiplets and shared by the roots of a spin manifold (model: SpmanModel). *)
From Coq Require Import List Bool Arith NArith ZArith Reals Lia Lra.
From Verif Require Import Base Star FockSpec FockFacts FockOps DetModel HalfModel LsisUpdModel SmultSpec SmultComm SmultModel PropSmult LadderSpec LadderModel LadderAng LadderMain PropLadder UrootModel SpmanModel SpmanSpec SpmanFam SpmanEntry SpmanGet SpmanMain.
Import ListNotations.
Local Open Scope nat_scope.

Section Hyps.
  Variables (n nu : nat) (ne : nat -> nat * nat) (nl : nat -> nat) (ci : nat -> nat -> nat -> nat -> R) (smult : nat -> Z) (psi : nat -> nat -> Z -> vec Rs).
  Definition twice_m (u : nat) : Z := (Z.of_nat (fst (ne u)) - Z.of_nat (snd (ne u)))%Z.
  Definition electrons (u : nat) : nat := fst (ne u) + snd (ne u).
  (** the CI vectors are members of multiplets of the spins claimed, and not zero *)
  Definition spin_states : Prop := forall u, u < nu -> 0 < nl u /\ snd (ne u) <= n /\ member (smult u - 1) (twice_m u) /\ forall a, a < nl u ->
    multiplet n (smult u - 1) (psi u a) /\ veq Rs (2 * n) (ci_state n (ne u) (ci u a)) (psi u a (twice_m u)) /\ ~ vec0 n (ci_state n (ne u) (ci u a)).
  (** multiplets whose members of largest m overlap by 1 within [tol], state by state, are the same *)
  Definition told_apart (tol : R) : Prop := forall i j, i < nu -> j < nu -> smult i = smult j -> nl i = nl j -> electrons i = electrons j ->
    (forall a, a < nl i -> (Rabs (inner Rs (2 * n) (psi i a (smult i - 1)%Z) (psi j a (smult j - 1)%Z) - 1) <= tol)%R) ->
    forall a, a < nl i -> veq Rs (2 * n) (psi i a (smult i - 1)%Z) (psi j a (smult j - 1)%Z).
  Definition elements_between (t : HalfModel.tag) (i j a b : nat) (ix : list nat) : R :=
    inner Rs (2 * n) (ci_state n (ne i) (ci i a)) (opn n t ix (ci_state n (ne j) (ci j b))).
  Definition connects (t : HalfModel.tag) (i j : nat) : Prop :=
    (Z.of_nat (fst (ne i)) = Z.of_nat (fst (ne j)) + fst (adds t) /\ Z.of_nat (snd (ne i)) = Z.of_nat (snd (ne j)) + snd (adds t))%Z.
End Hyps.

Theorem C75_tables : forall n nu uaddr ne nl ci smult disc small tol psi, small 0%R = true -> (forall a b, a <= b -> uaddr a <= uaddr b) ->
  spin_states n nu ne nl ci smult psi -> told_apart n nu ne nl smult psi tol ->
  forall t i j a b ix, i < nu -> j < nu -> connects ne t i j -> a < nl i -> b < nl j -> index n t ix ->
  exists T, get n nu uaddr ne nl ci smult disc small tol t i j = Ok T /\ T a b ix = Some (elements_between n ne ci t i j a b ix).
Proof.
  intros n nu uaddr ne nl ci smult disc small tol psi Hs Ha HS HT t i j a b ix Hi Hj Hc Hai Hbj Hx.
  destruct (get_ok n nu uaddr ne nl ci smult disc small tol psi Hs Ha (fun u H => proj1 (HS u H)) (fun u H => proj1 (proj2 (HS u H))) (fun u H => proj1 (proj2 (proj2 (HS u H))))
    (fun u a H H' => proj2 (proj2 (proj2 (HS u H))) a H') HT t i j ix Hx Hi Hj Hc) as (T & E & F).
  exists T. split; [exact E|]. exact (F a b ix Hai Hbj Hx).
Qed.
Theorem C75_overlap : forall n nu ne nl ci smult disc tol psi, spin_states n nu ne nl ci smult psi -> told_apart n nu ne nl smult psi tol ->
  forall i j a b, i < nu -> j < nu -> ne i = ne j -> a < nl i -> b < nl j ->
  exists T, get_ovlp n nu ne nl ci smult disc tol i j = Ok T /\ T a b = inner Rs (2 * n) (ci_state n (ne i) (ci i a)) (ci_state n (ne j) (ci j b)).
Proof.
  intros n nu ne nl ci smult disc tol psi HS HT i j a b Hi Hj Hn Ha Hb.
  destruct (ovlp_ok n nu ne nl ci smult disc tol psi (fun u H => proj1 (HS u H)) (fun u H => proj1 (proj2 (HS u H))) (fun u H => proj1 (proj2 (proj2 (HS u H))))
    (fun u a H H' => proj2 (proj2 (proj2 (HS u H))) a H') HT i j Hi Hj Hn) as (T & E & F).
  exists T. split; [exact E|exact (F a b Ha Hb)].
Qed.
(** an exact comparison tells normalised vectors apart *)
Theorem C75_exact : forall n nu ne nl ci smult psi, spin_states n nu ne nl ci smult psi ->
  (forall u a, u < nu -> a < nl u -> norm2 n (ci_state n (ne u) (ci u a)) = 1%R) -> told_apart n nu ne nl smult psi 0.
Proof.
  intros n nu ne nl ci smult psi HS HN i j Hi Hj ES EL _ H a Ha. specialize (H a Ha).
  assert (N : forall u, u < nu -> a < nl u -> inner Rs (2 * n) (psi u a (smult u - 1)%Z) (psi u a (smult u - 1)%Z) = 1%R).
  { intros u Hu Hau. destruct (HS u Hu) as (_ & _ & HM & F). destruct (F a Hau) as (F1 & F2 & _). rewrite <- (HN u a Hu Hau). unfold norm2.
    assert (T : member (smult u - 1) (smult u - 1)) by (destruct HM; split; [lia|exists 0%Z; lia]).
    rewrite (ovl_const n (smult u - 1) (smult u - 1) (psi u a) (psi u a) (smult u - 1) (twice_m ne u) F1 F1 T T HM HM). apply (inner_ext Rs); intros d Hd; symmetry; exact (F2 d Hd). }
  pose proof (N i Hi Ha) as Ni. pose proof (N j Hj ltac:(lia)) as Nj. set (u := psi i a (smult i - 1)%Z) in *. set (v := psi j a (smult j - 1)%Z) in *.
  assert (E : inner Rs (2 * n) u v = 1%R) by (pose proof (Rabs_pos (inner Rs (2 * n) u v - 1)); destruct (Req_dec (inner Rs (2 * n) u v - 1) 0) as [Q|Q]; [cbn in *; lra|apply Rabs_pos_lt in Q; cbn in *; lra]).
  assert (E' : inner Rs (2 * n) v u = 1%R) by (rewrite (inner_swap Rs (2 * n)), E; reflexivity).
  pose (w := fun d => (u d + -1 * v d)%R : R).
  assert (P : forall x : vec Rs, inner Rs (2 * n) x w = (inner Rs (2 * n) x u + -1 * inner Rs (2 * n) x v)%R).
  { intros x. unfold w. rewrite (inner_plus n x u (fun d => (-1 * v d)%R)), (inner_scale_r n x v (-1)%R). reflexivity. }
  assert (C : forall x y : vec Rs, inner Rs (2 * n) x y = inner Rs (2 * n) y x) by (intros x y; rewrite (inner_swap Rs (2 * n) x y); reflexivity).
  assert (Z : inner Rs (2 * n) w w = 0%R) by (rewrite P, (C w u), (C w v), !P, Ni, Nj, E, E'; change (@eq R ((1 + -1 * 1) + -1 * (1 + -1 * 1)) 0)%R; ring).
  apply inner_0 in Z. intros d Hd. specialize (Z d Hd). change (@eq R (u d) (v d)). change (@eq R (u d + -1 * v d) 0)%R in Z. lra.
Qed.

(** ** one electron in two orbitals: root 0 has spin up in the first orbital, root 1 spin down in cs times the first plus sn times the second *)
Definition c2 (cs sn : R) (u x : nat) : R := match u, x with 0, 0 => 1 | 0, _ => 0 | _, 0 => cs | _, _ => sn end%R.
Definition ne2 (u : nat) : nat * nat := match u with 0 => (1, 0) | _ => (0, 1) end.
Definition ci2 (cs sn : R) (u _ x y : nat) : R := match u with 0 => c2 cs sn 0 x | _ => c2 cs sn 1 y end.
Definition psi2 (cs sn : R) (u _ : nat) (M : Z) : vec Rs :=
  match M with 1%Z => ci_state 2 (1, 0) (fun x _ => c2 cs sn u x) | (-1)%Z => ci_state 2 (0, 1) (fun _ y => c2 cs sn u y) | _ => fun _ => 0%R end.
Ltac each H := apply in_dets in H; cbn [dets map seq N.of_nat Nat.pow Nat.mul Nat.add] in H; repeat destruct H as [<-|H]; [..|destruct H].
Ltac calc := cbv -[Rplus Rmult Ropp Rdiv Rinv Rminus IZR sqrt hf down up].
Lemma psi2_ok cs sn u a : multiplet 2 1 (psi2 cs sn u a).
Proof.
  intros M H. assert (G : (M = 1 \/ M = -1)%Z) by (destruct H as [A [j Ej]]; lia). clear H. unfold psi2. set (c := c2 cs sn u). clearbody c.
  destruct G as [->| ->]; unfold down, up, hf.
  - replace ((1 / 2 + 1 / 2) * (1 / 2 - 1 / 2 + 1))%R with 1%R by field. replace ((1 / 2 - 1 / 2) * (1 / 2 + 1 / 2 + 1))%R with 0%R by field. rewrite sqrt_0, sqrt_1. split; intros d H; each H; calc; ring.
  - replace ((1 / 2 + -1 / 2) * (1 / 2 - -1 / 2 + 1))%R with 0%R by field. replace ((1 / 2 - -1 / 2) * (1 / 2 + -1 / 2 + 1))%R with 1%R by field. rewrite sqrt_0, sqrt_1. split; intros d H; each H; calc; ring.
Qed.
Lemma states2 cs sn : (cs * cs + sn * sn = 1)%R -> spin_states 2 2 ne2 (fun _ => 1) (ci2 cs sn) (fun _ => 2%Z) (psi2 cs sn) /\ forall u a, u < 2 -> a < 1 -> norm2 2 (ci_state 2 (ne2 u) (ci2 cs sn u a)) = 1%R.
Proof.
  intros E. assert (N : forall u a, u < 2 -> a < 1 -> norm2 2 (ci_state 2 (ne2 u) (ci2 cs sn u a)) = 1%R).
  { intros u a Hu _. destruct u as [|[|u]]; [| |lia]; unfold norm2, inner, dets; calc; [ring|]. rewrite <- E. ring. }
  split; [|exact N]. intros u Hu. split; [lia|]. split; [destruct u as [|[|]]; cbn; lia|]. split.
  - apply mem_1. destruct u as [|[|]]; [left|right|lia]; reflexivity.
  - intros a Ha. split; [exact (psi2_ok cs sn u a)|]. split.
    + destruct u as [|[|]]; [intros d _; reflexivity|intros d _; reflexivity|lia].
    + intros Z. pose proof (N u a Hu Ha) as X. unfold norm2 in X. rewrite (inner_ext Rs (2 * 2) _ (fun _ => 0%R) _ (fun _ => 0%R) Z Z) in X. unfold inner in X. rewrite (@bsum_0 Rs) in X; [cbn in X; lra|]. intros d _. change (@eq R (0 * 0) 0)%R. ring.
Qed.
(** roots 0 and 1 are put in one manifold, and the table for roots 0 and 0 is made with root 1 *)
Lemma merged2 cs sn tol : (cs * cs + sn * sn = 1)%R -> (Rabs (cs - 1) <= tol)%R -> exists sp map_ uniq,
  manifolds 2 2 ne2 (fun _ => 1) (ci2 cs sn) (fun _ => 2%Z) (fun _ => 0%Z) tol = Ok sp /\ sp 0 = 0 /\ sp 1 = 0 /\ inter_map sp (Mz2 ne2) 2 = Ok (map_, uniq) /\ map_ 0 0 = (1, 1) /\ uniq 1 1 = true.
Proof.
  intros E H. destruct (states2 cs sn E) as [HS _]. unfold manifolds.
  assert (I := images_ok 2 2 ne2 (fun _ => 1) (ci2 cs sn) (fun _ => 2%Z) (psi2 cs sn) (fun u H => proj1 (proj2 (HS u H))) (fun u H => proj1 (proj2 (proj2 (HS u H)))) (fun u a H H' => proj2 (proj2 (proj2 (HS u H))) a H')).
  destruct (I 0 ltac:(lia)) as (i0 & E0 & L0 & F0). destruct (I 1 ltac:(lia)) as (i1 & E1 & L1 & F1).
  cbn [seq]. unfold mapM. rewrite E0. cbn [bind]. rewrite E1. cbn [bind].
  set (ovl := same_images (fun _ => 1) tol (fun u => nth u [i0; i1] [])).
  assert (O : ovl 0 1 = true).
  { unfold ovl, same_images. cbn [seq forallb nth]. rewrite andb_true_r. unfold close_to_one. destruct (Rle_dec _ tol) as [|N]; [reflexivity|]. elim N.
    destruct (F0 0 ltac:(lia)) as (S0 & V0 & _). destruct (F1 0 ltac:(lia)) as (S1 & V1 & _). rewrite (dot_inner 2 _ _ _ S0).
    change (top ne2 (fun _ : nat => 2%Z) 1) with (top ne2 (fun _ : nat => 2%Z) 0) in V1.
    rewrite (inner_ext Rs (2 * 2) _ (psi2 cs sn 0 0 1) _ (psi2 cs sn 1 0 1) V0 V1).
    assert (X : inner Rs (2 * 2) (psi2 cs sn 0 0 1) (psi2 cs sn 1 0 1) = cs) by (unfold inner, dets; calc; ring). rewrite X. exact H. }
  assert (Q : spman true (udat ne2 (fun _ => 1) (fun _ => 2%Z) (fun _ => 0%Z)) ovl 2 = aset (fun k => k) 1 0).
  { unfold spman, spin_manifolds. cbn -[ovl aset exclude0]. change (exclude0 (udat ne2 (fun _ => 1) (fun _ => 2%Z) (fun _ => 0%Z)) 2 0 1) with false. cbn -[ovl aset exclude0]. rewrite O. reflexivity. }
  rewrite Q. eexists _, _, _. split; [reflexivity|]. split; [reflexivity|]. split; [reflexivity|]. split; [vm_compute; reflexivity|]. split; reflexivity.
Qed.
(** members of one doublet: the spin-flip element between them *)
Example C75_example : spin_states 2 2 ne2 (fun _ => 1) (ci2 1 0) (fun _ => 2%Z) (psi2 1 0) /\ told_apart 2 2 ne2 (fun _ => 1) (fun _ => 2%Z) (psi2 1 0) (1 / 100000) /\
  manifolds 2 2 ne2 (fun _ => 1) (ci2 1 0) (fun _ => 2%Z) (fun _ => 0%Z) (1 / 100000) <> Ok (fun k => k) /\
  exists T, get 2 2 (fun u => u) ne2 (fun _ => 1) (ci2 1 0) (fun _ => 2%Z) (fun _ => 0%Z) (fun x => if Req_EM_T x 0 then true else false) (1 / 100000) HalfModel.Tsm 1 0 = Ok T /\ T 0 0 [0; 0] = Some 1%R.
Proof.
  destruct (states2 1 0 ltac:(ring)) as [HS HN].
  assert (HT : told_apart 2 2 ne2 (fun _ => 1) (fun _ => 2%Z) (psi2 1 0) (1 / 100000)).
  { intros i j Hi Hj _ _ _ _ a Ha. destruct i as [|[|]]; [| |lia]; (destruct j as [|[|]]; [| |lia]); intros d _; reflexivity. }
  split; [exact HS|]. split; [exact HT|]. split.
  - destruct (merged2 1 0 (1 / 100000) ltac:(ring)) as (sp & _ & _ & E & _ & E1 & _); [rewrite Rminus_diag_eq, Rabs_R0 by reflexivity; lra|]. rewrite E. intros X. injection X as X. rewrite X in E1. discriminate.
  - assert (H0 : (if Req_EM_T 0 0 then true else false) = true) by (destruct (Req_EM_T 0 0) as [|Q]; [reflexivity|now elim Q]).
    destruct (C75_tables 2 2 (fun u => u) ne2 (fun _ => 1) (ci2 1 0) (fun _ => 2%Z) (fun _ => 0%Z) (fun x => if Req_EM_T x 0 then true else false) (1 / 100000) (psi2 1 0) H0 (fun a b H => H) HS HT HalfModel.Tsm 1 0 0 0 [0; 0]) as (T & E & F); try (cbn; lia).
    { split; reflexivity. }
    exists T. split; [exact E|]. rewrite F. apply (f_equal Some). unfold elements_between, inner, dets. calc. ring.
Qed.

(** *** np.allclose is too generous: an element that is zero comes out as more than 4/1000 *)
Theorem C75_close_refuted : exists n nu ne nl ci smult psi, spin_states n nu ne nl ci smult psi /\ (forall u a, u < nu -> a < nl u -> norm2 n (ci_state n (ne u) (ci u a)) = 1%R) /\
  exists t i j a b ix, i < nu /\ j < nu /\ connects ne t i j /\ a < nl i /\ b < nl j /\ index n t ix /\ elements_between n ne ci t i j a b ix = 0%R /\
    forall small, small 0%R = true -> exists T y, get n nu (fun u => u) ne nl ci smult (fun _ => 0%Z) small (1 / 10 ^ 8 + 1 / 10 ^ 5) t i j = Ok T /\ T a b ix = Some y /\ (4 / 1000 < y)%R.
Proof.
  set (cs := (1 - 1 / 10 ^ 5)%R). set (sn := sqrt (1 - cs * cs)).
  assert (K : (0 <= 1 - cs * cs <= 1)%R) by (unfold cs; lra).
  assert (Q : (sn * sn = 1 - cs * cs)%R) by (apply sqrt_sqrt; lra).
  assert (E : (cs * cs + sn * sn = 1)%R) by lra.
  assert (P : (44 / 10000 <= sn)%R). { replace (44 / 10000)%R with (sqrt ((44 / 10000) * (44 / 10000))) by (apply sqrt_square; lra). apply sqrt_le_1_alt. unfold cs. lra. }
  assert (HA : (Rabs (cs - 1) <= 1 / 10 ^ 8 + 1 / 10 ^ 5)%R) by (unfold cs; rewrite Rabs_left; lra).
  assert (P' : (4 / 1000 < cs * sn)%R). { apply Rlt_le_trans with (cs * (44 / 10000))%R; [unfold cs; lra|]. apply Rmult_le_compat_l; [unfold cs; lra|exact P]. }
  clearbody sn. clear K Q P. destruct (states2 cs sn E) as [HS HN].
  exists 2, 2, ne2, (fun _ => 1), (ci2 cs sn), (fun _ => 2%Z), (psi2 cs sn). split; [exact HS|]. split; [exact HN|].
  exists Tdm1, 0, 0, 0, 0, [0; 0; 1]. assert (IX : index 2 Tdm1 [0; 0; 1]) by (cbn; lia).
  do 2 (split; [lia|]). split; [split; reflexivity|]. do 2 (split; [lia|]). split; [exact IX|]. split.
  { unfold elements_between, inner, dets. clearbody cs. calc. ring. }
  intros small H0. destruct (merged2 cs sn _ E HA) as (sp & mp & uq & Em & _ & _ & Ei & E1 & E2). cbn [get]. unfold get_dm. rewrite Em. cbn [bind]. rewrite Ei. cbn [bind fst]. rewrite E1. cbn [Nat.ltb Nat.leb].
  unfold try_get. rewrite Em. cbn [bind]. rewrite Ei. cbn [bind fst]. rewrite E1.
  replace (computed _ _ uq _ (utag Tdm1) 1 1) with true by (unfold computed; cbn; rewrite ?E2; reflexivity).
  destruct (entry_ok 2 2 (fun u => u) ne2 (fun _ => 1) (ci2 cs sn) (fun _ => 2%Z) small (psi2 cs sn) H0 (fun a b H => H) (fun u H => proj1 (HS u H)) (fun u H => proj1 (proj2 (HS u H)))
    (fun u H => proj1 (proj2 (proj2 (HS u H)))) (fun u a H H' => proj2 (proj2 (proj2 (HS u H))) a H') Tdm1 1 1 [0; 0; 1] IX ltac:(lia) ltac:(lia) ltac:(split; reflexivity) ltac:(lia)) as (x & Ex & Fx).
  rewrite Ex. cbn [bind]. eexists. eexists. split; [reflexivity|]. cbv beta.
  assert (M1 : member 1 1) by (apply mem_1; left; reflexivity).
  split; [exact (mdown_ok 2 1 1 (psi2 cs sn 1 0) (psi2 cs sn 1 0) 1 Tdm1 (x 0 0) (psi2_ok cs sn 1 0) (psi2_ok cs sn 1 0) M1 M1 (fun i Hi => Fx 0 0 i ltac:(lia) ltac:(lia) Hi) [0; 0; 1] IX)|].
  eapply Rlt_le_trans; [exact P'|]. right. clearbody cs. unfold inner, dets. calc. ring.
Qed.

Print Assumptions C75_tables.
Print Assumptions C75_overlap.
Print Assumptions C75_exact.
Print Assumptions C75_close_refuted.
Print Assumptions C75_example.
