(** The accessors of a fragment. *)
From Coq Require Import List Bool Arith NArith ZArith Reals Lia Lra.
From Verif Require Import Base Star FockSpec FockFacts FockOps LprodSpec LasFock DetModel DetFacts CrunchModel CrunchSpec CrunchFacts HalfSpec HalfModel HalfFacts HalfFun HalfInner HalfDms LsisUpdModel SmultSpec SmultModel LadderSpec LadderModel LadderStr LadderAng LadderMain PropLadder UrootModel UrootFacts PropUroot SpmanModel SpmanBridge SpmanFam SpmanSpec SpmanEntry SpmanGet.
Import ListNotations.
Local Open Scope nat_scope.

Lemma flat_inner n ne0 (c c' : nat -> nat -> R) : inner Rs (2 * n) (ci_state n ne0 c) (ci_state n ne0 c') =
  bsum (seq 0 (num_strings n (fst ne0))) (fun x => bsum (seq 0 (num_strings n (snd ne0))) (fun y => smul (c x y : Rs) (c' x y : Rs))).
Proof.
  pose proof (bridge n ne0 ne0 c c' [] (Forall_nil _)) as B. cbn [sops fold_right] in B. rewrite <- B. unfold melem2. cbn [lops fold_right]. exact (@inner_civec Rs n ne0 c c').
Qed.
Lemma dot_inner n ne0 x y : shaped n ne0 x -> dot x y = inner Rs (2 * n) (ci_state n ne0 (a_el x)) (ci_state n ne0 (a_el y)).
Proof. intros [H1 H2]. rewrite flat_inner. unfold dot. rewrite H1, H2. reflexivity. Qed.

Section Main.
  Variables (n nu : nat) (uaddr : nat -> nat) (ne : nat -> nat * nat) (nl : nat -> nat) (ci : nat -> nat -> nat -> nat -> R) (smult disc : nat -> Z) (small : R -> bool) (tol : R).
  Variable psi : nat -> nat -> Z -> vec Rs.
  Hypothesis small0 : small 0%R = true.
  Hypothesis addr_le : forall a b, a <= b -> uaddr a <= uaddr b.
  Hypothesis nl_pos : forall u, u < nu -> 0 < nl u.
  Hypothesis fits : forall u, u < nu -> snd (ne u) <= n.
  Notation S_ u := (smult u - 1)%Z.
  Hypothesis has_m : forall u, u < nu -> member (S_ u) (Mz (ne u)).
  Notation st u a := (ci_state n (ne u) (ci u a)).
  Hypothesis Hpsi : forall u a, u < nu -> a < nl u -> multiplet n (S_ u) (psi u a) /\ veq Rs (2 * n) (st u a) (psi u a (Mz (ne u))) /\ ~ vec0 n (st u a).
  Notation el u := (fst (ne u) + snd (ne u)).
  Hypothesis Hclose : forall i j, i < nu -> j < nu -> smult i = smult j -> nl i = nl j -> el i = el j ->
    (forall a, a < nl i -> (Rabs (inner Rs (2 * n) (psi i a (S_ i)) (psi j a (S_ j)) - 1) <= tol)%R) -> forall a, a < nl i -> veq Rs (2 * n) (psi i a (S_ i)) (psi j a (S_ j)).

  Lemma top_eq i j : i < nu -> j < nu -> smult i = smult j -> el i = el j -> top ne smult i = top ne smult j.
  Proof.
    intros Hi Hj HS HE. destruct (lift_u n nu ne nl ci smult psi fits has_m Hpsi i 0 Hi (nl_pos i Hi)) as (A1 & A2 & A3 & _). destruct (lift_u n nu ne nl ci smult psi fits has_m Hpsi j 0 Hj (nl_pos j Hj)) as (B1 & B2 & B3 & _).
    unfold Mz in *. destruct (top ne smult i) as [x y]. destruct (top ne smult j) as [x' y']. cbn [fst snd] in *. f_equal; lia.
  Qed.
  Definition same (i j : nat) : Prop := smult i = smult j /\ nl i = nl j /\ el i = el j /\ forall a M, a < nl i -> member (S_ i) M -> veq Rs (2 * n) (psi i a M) (psi j a M).
  Lemma same_refl i : same i i. Proof. split; [reflexivity|]. split; [reflexivity|]. split; [reflexivity|]. intros a M _ _ d _. reflexivity. Qed.
  Lemma same_sym i j : same i j -> same j i.
  Proof. intros (A1 & A2 & A3 & A4). repeat split; auto. intros a M Ha HM d Hd. symmetry. apply A4; [lia|rewrite A1; exact HM|exact Hd]. Qed.
  Lemma same_trans i j k : same i j -> same j k -> same i k.
  Proof. intros (A1 & A2 & A3 & A4) (B1 & B2 & B3 & B4). split; [congruence|]. split; [congruence|]. split; [congruence|]. intros a M Ha HM d Hd. rewrite (A4 a M Ha HM d Hd). apply B4; [lia|rewrite <- A1; exact HM|exact Hd]. Qed.
  Notation ud := (udat ne nl smult disc).
  Lemma manifolds_ok : exists ovl, manifolds n nu ne nl ci smult disc tol = Ok (spman true ud ovl nu) /\ forall i j, i < nu -> j < nu -> spman true ud ovl nu i = spman true ud ovl nu j -> same i j.
  Proof.
    unfold manifolds. destruct (mapM_all (images n ne nl ci smult) (fun u im => length im = nl u /\ forall a, a < nl u -> shaped n (top ne smult u) (nth a im a_empty) /\ veq Rs (2 * n) (ci_state n (top ne smult u) (a_el (nth a im a_empty))) (psi u a (S_ u))) (seq 0 nu)) as (ims & E & L & I).
    { intros u Hu. apply in_seq in Hu. destruct (images_ok n nu ne nl ci smult psi fits has_m Hpsi u ltac:(lia)) as (im & Ei & Li & Ii). exists im. split; [exact Ei|]. split; [exact Li|]. intros a Ha. destruct (Ii a Ha) as (X & Y & _). split; assumption. }
    rewrite E. cbn [bind]. eexists. split; [reflexivity|]. set (ovl := same_images nl tol (fun u => nth u ims [])). set (U := spman true ud ovl nu).
    assert (R : forall k, k < nu -> same (U k) k).
    { intros k Hk. destruct (Nat.eq_dec (U k) k) as [Q|Q]; [rewrite Q; apply same_refl|]. destruct (spman_ovl ud ovl nu k Q) as (Ho & Hu & Hl). fold U in Ho, Hu, Hl. set (r := U k) in *.
      destruct (C41_manifold ud ovl nu r k Hu Q) as (C1 & C2 & C3 & _). cbn [udat u_nelec u_smult u_lroots] in C1, C2, C3. assert (N1 : el r = el k) by lia. assert (N2 : nl r = nl k) by lia.
      assert (Hr : r < nu) by lia. rewrite seq_length in I. pose proof (I r 0 [] Hr) as Ir. pose proof (I k 0 [] Hk) as Ik. rewrite seq_nth in Ir, Ik by lia. cbn [Nat.add] in Ir, Ik. destruct Ir as [Lr Ir]. destruct Ik as [Lk Ik].
      assert (V : forall a, a < nl r -> veq Rs (2 * n) (psi r a (S_ r)) (psi k a (S_ k))).
      { apply (Hclose r k Hr Hk C2 N2 N1). intros a Ha. unfold ovl, same_images in Ho. rewrite forallb_forall in Ho. specialize (Ho a ltac:(apply in_seq; lia)). unfold close_to_one in Ho.
        destruct (Ir a Ha) as [Sr Vr]. destruct (Ik a ltac:(lia)) as [Sk Vk]. destruct (Rle_dec _ tol) as [Ho'|]; [|discriminate]. rewrite (dot_inner n (top ne smult r)) in Ho' by exact Sr.
        rewrite (inner_ext Rs (2 * n) (ci_state n (top ne smult r) (a_el (nth a (nth r ims []) a_empty))) (psi r a (S_ r)) (ci_state n (top ne smult r) (a_el (nth a (nth k ims []) a_empty))) (psi k a (S_ k))) in Ho'; [exact Ho'|exact Vr|].
        rewrite (top_eq r k Hr Hk C2 N1). exact Vk. }
      split; [exact C2|]. split; [exact N2|]. split; [exact N1|]. intros a M Ha HM. destruct (Hpsi r a Hr Ha) as (P1 & _). destruct (Hpsi k a Hk ltac:(lia)) as (P2 & _). rewrite <- C2 in P2.
      assert (T : member (S_ r) (S_ r)) by (destruct (has_m r Hr) as [H _]; split; [lia|exists 0%Z; lia]).
      apply (multiplet_det n (S_ r) (psi r a) (psi k a) (S_ r) P1 P2 T); [|exact HM]. pose proof (V a Ha) as Va. rewrite <- C2 in Va. exact Va. }
    intros i j Hi Hj Hs. apply (same_trans i (U i) j); [apply same_sym, R; exact Hi|]. rewrite Hs. apply R. exact Hj.
  Qed.
  Lemma opn_ext t i (u v : vec Rs) : index n t i -> veq Rs (2 * n) u v -> veq Rs (2 * n) (opn n t i u) (opn n t i v).
  Proof. intros Hi E. rewrite <- !sops_opn by exact Hi. apply sops_ext; [apply ops_ok; exact Hi|exact E]. Qed.

  Notation na := (fun u => Z.of_nat (fst (ne u))). Notation nb := (fun u => Z.of_nat (snd (ne u))).
  Definition hop_ij (t : HalfModel.tag) (i j : nat) : Prop := (na i = na j + fst (adds t) /\ nb i = nb j + snd (adds t))%Z.
  Lemma hop_tag t i j i0 : index n t i0 -> hop_ij t i j -> UrootModel.hop na nb i j = tag_hop (utag t).
  Proof.
    intros Hi [H1 H2]. unfold UrootModel.hop. destruct t as [| |s|s| |s]; cbn [adds utag tag_hop fst snd index] in *; idx i0 Hi; try (f_equal; lia); unfold SpmanSpec.dn in *.
    - destruct s as [|[|]]; cbn [Nat.eqb negb fst snd] in *; try (f_equal; lia).
    - destruct s as [|[|]]; cbn [Nat.eqb negb fst snd] in *; try (f_equal; lia).
    - destruct s as [|[|[|]]]; cbn [tag_hop] in *; try (f_equal; lia).
  Qed.
  (** everything there is to know about the map *)
  Definition dm (t : HalfModel.tag) : Prop := t = Tdm1 \/ t = Tdm2.
  Lemma map_ok : exists sp M Q, manifolds n nu ne nl ci smult disc tol = Ok sp /\ inter_map sp (Mz2 ne) nu = Ok (M, Q) /\ forall i j, i < nu -> j < nu ->
    exists p q, M i j = (p, q) /\ M j i = (q, p) /\ p < nu /\ q < nu /\ same p i /\ same q j /\ (Mz (ne p) - Mz (ne q) = Mz (ne i) - Mz (ne j))%Z /\
      forall t i0, index n t i0 -> hop_ij t i j -> (dm t -> q <= p) -> computed na nb Q (fun _ _ => true) (utag t) p q = true.
  Proof.
    destruct manifolds_ok as (ovl & E & Sm). set (sp := spman true ud ovl nu) in *. destruct (C41_map sp (u_spin ud) nu (C41_distinct true ud ovl nu)) as (M & Q & EM & HM).
    exists sp, M, Q. split; [exact E|]. split; [exact EM|]. intros i j Hi Hj. destruct (HM i j Hi Hj) as (p & q & G & Hp & Hq & S1 & S2 & Sz & G' & Q1 & Q2). exists p, q.
    split; [exact G|]. split; [exact G'|]. split; [exact Hp|]. split; [exact Hq|]. split; [apply Sm; auto|]. split; [apply Sm; auto|]. split; [exact Sz|]. intros t i0 Hi0 Hh Hdm.
    pose proof (C41_computed true ud ovl nu na nb (fun _ _ => true) M Q (fun _ => eq_refl) (fun _ => eq_refl) (fun _ _ => eq_refl) (fun _ _ _ _ _ _ _ _ _ _ => eq_refl) EM (utag t) i j Hi Hj (hop_tag t i j i0 Hi0 Hh) eq_refl) as C.
    assert (L : lookup M (utag t) i j = (p, q)); [|rewrite L in C; apply C]. destruct t; cbn [utag lookup]; try exact G.
    - rewrite G. destruct (Nat.ltb_spec p q) as [H|H]; [|reflexivity]. specialize (Hdm (or_introl eq_refl)). lia.
    - rewrite G. destruct (Nat.ltb_spec p q) as [H|H]; [|reflexivity]. specialize (Hdm (or_intror eq_refl)). lia.
  Qed.
  Notation tryg := (try_get n nu uaddr ne nl ci smult disc small tol).
  Definition elem (t : HalfModel.tag) (i j a b : nat) (ix : list nat) : R := inner Rs (2 * n) (st i a) (opn n t ix (st j b)).
  Definition fine (t : HalfModel.tag) (i j : nat) (T : nat -> nat -> list nat -> num) : Prop := forall a b ix, a < nl i -> b < nl j -> index n t ix -> T a b ix = Some (elem t i j a b ix).
  Lemma try_ok t i j i0 : index n t i0 -> i < nu -> j < nu -> hop_ij t i j ->
    (forall sp M Q p q, manifolds n nu ne nl ci smult disc tol = Ok sp -> inter_map sp (Mz2 ne) nu = Ok (M, Q) -> M i j = (p, q) -> dm t -> q <= p) ->
    exists T, tryg t i j = Ok T /\ fine t i j T.
  Proof.
    intros Hi0 Hi Hj Hh Hdm. destruct map_ok as (sp & M & Q & E & EM & HM). destruct (HM i j Hi Hj) as (p & q & G & _ & Hp & Hq & Sp & Sq & Sz & Hc).
    pose proof (Hdm sp M Q p q E EM G) as Hd. unfold try_get. rewrite E. cbn [bind]. rewrite EM. cbn [bind]. rewrite G, (Hc t i0 Hi0 Hh Hd).
    destruct Sp as (P1 & P2 & P3 & P4). destruct Sq as (Q1 & Q2 & Q3 & Q4).
    assert (Hpq : (Z.of_nat (fst (ne p)) = Z.of_nat (fst (ne q)) + fst (adds t) /\ Z.of_nat (snd (ne p)) = Z.of_nat (snd (ne q)) + snd (adds t))%Z) by (unfold hop_ij in Hh; unfold Mz in Sz; lia).
    destruct (entry_ok n nu uaddr ne nl ci smult small psi small0 addr_le nl_pos fits has_m Hpsi t p q i0 Hi0 Hp Hq Hpq Hd) as (x & Ex & Hx). rewrite Ex. cbn [bind]. eexists. split; [reflexivity|].
    intros a b ix Ha Hb Hix. cbv beta. destruct (Hpsi p a Hp ltac:(lia)) as (Mp & _). destruct (Hpsi q b Hq ltac:(lia)) as (Mq & _).
    assert (EMz : Mz2 ne j = Mz (ne j)) by reflexivity. rewrite EMz. assert (Hd' : (Mz (ne i) = Mz (ne j) + dsp t)%Z) by (unfold hop_ij in Hh; unfold Mz, dsp; lia).
    assert (HMj : member (S_ q) (Mz (ne j))) by (rewrite Q1; apply has_m; exact Hj). assert (HMi : member (S_ p) (Mz (ne j) + dsp t)) by (rewrite <- Hd', P1; apply has_m; exact Hi).
    rewrite <- P1, <- Q1. rewrite <- (sm smult p), <- (sm smult q).
    rewrite (mdown_ok n (S_ p) (S_ q) (psi p a) (psi q b) (Mz (ne j)) t (x a b) Mp Mq HMj HMi); [|intros i1 Hi1; rewrite !sm; apply Hx; [lia|lia|exact Hi1]|exact Hix].
    f_equal. unfold elem. rewrite <- Hd'. apply (inner_ext Rs).
    - intros d Hdd. destruct (Hpsi i a Hi Ha) as (_ & Vi & _). rewrite (Vi d Hdd). apply P4; [lia|rewrite Hd'; exact HMi|exact Hdd].
    - apply opn_ext; [exact Hix|]. intros d Hdd. destruct (Hpsi j b Hj Hb) as (_ & Vj & _). rewrite (Vj d Hdd). apply Q4; [lia|exact HMj|exact Hdd].
  Qed.
  Lemma swap_ok t i j a b ix : dm t -> index n t ix -> index n t (swap_ix t ix) /\ elem t j i b a (swap_ix t ix) = elem t i j a b ix.
  Proof.
    intros Ht H. assert (W : index n t (swap_ix t ix) /\ ops_of t (swap_ix t ix) = rev (map flip (ops_of t ix))).
    { destruct Ht as [->| ->]; cbn [index] in H; idx ix H; cbn [swap_ix index ops_of]; split; try reflexivity; tauto. }
    destruct W as [W1 W2]. split; [exact W1|]. unfold elem. rewrite <- !sops_opn by assumption. rewrite <- !bridge by (apply ops_ok; assumption). rewrite W2. symmetry. apply (@melem2_adj Rs); [intros x; reflexivity|apply ops_ok0; exact H].
  Qed.
  Notation getg := (get n nu uaddr ne nl ci smult disc small tol).
  Lemma get_ok t i j i0 : index n t i0 -> i < nu -> j < nu -> hop_ij t i j -> exists T, getg t i j = Ok T /\ fine t i j T.
  Proof.
    intros Hi0 Hi Hj Hh. assert (C : dm t \/ (~ dm t /\ getg t i j = tryg t i j)) by (unfold dm; destruct t; auto; right; (split; [intros [H|H]; discriminate H|reflexivity])). destruct C as [Ht|[Ht ->]]; [|apply (try_ok t i j i0 Hi0 Hi Hj Hh); intros; contradiction].
    assert (EG : getg t i j = get_dm n nu uaddr ne nl ci smult disc small tol t i j) by (destruct Ht as [->| ->]; reflexivity). rewrite EG. unfold get_dm. destruct map_ok as (sp & M & Q & E & EM & HM). rewrite E. cbn [bind]. rewrite EM. cbn [bind fst].
    destruct (HM i j Hi Hj) as (p & q & G & G' & _). rewrite G. destruct (Nat.ltb_spec p q) as [L|L].
    - assert (Hh' : hop_ij t j i) by (unfold hop_ij in *; destruct Ht as [->| ->]; cbn [adds fst snd] in *; lia).
      destruct (try_ok t j i i0 Hi0 Hj Hi Hh') as (T & ET & FT); [intros sp' M' Q' p' q' E' EM' G'' _; rewrite E in E'; injection E' as <-; rewrite EM in EM'; injection EM' as <- <-; rewrite G' in G''; injection G'' as <- <-; lia|].
      rewrite ET. cbn [bind]. eexists. split; [reflexivity|]. intros a b ix Ha Hb Hix. cbv beta. destruct (swap_ok t i j a b ix Ht Hix) as [W1 W2]. rewrite <- W2. apply (FT b a); assumption.
    - apply (try_ok t i j i0 Hi0 Hi Hj Hh). intros sp' M' Q' p' q' E' EM' G'' _. rewrite E in E'. injection E' as <-. rewrite EM in EM'. injection EM' as <- <-. rewrite G in G''. injection G'' as <- <-. exact L.
  Qed.
  Lemma ovlp_ok i j : i < nu -> j < nu -> ne i = ne j -> exists T, get_ovlp n nu ne nl ci smult disc tol i j = Ok T /\ forall a b, a < nl i -> b < nl j -> T a b = inner Rs (2 * n) (st i a) (st j b).
  Proof.
    intros Hi Hj Hn. destruct map_ok as (sp & M & Q & E & EM & HM). destruct manifolds_ok as (ovl & E' & _). destruct (HM i j Hi Hj) as (p & q & G & _ & Hp & Hq & (P1 & P2 & P3 & P4) & (Q1 & Q2 & Q3 & Q4) & Sz & _).
    unfold get_ovlp. rewrite E. cbn [bind]. rewrite EM. cbn [bind]. rewrite G. assert (Hh : UrootModel.hop na nb i j = tag_hop Tovlp) by (unfold UrootModel.hop; cbn [tag_hop]; rewrite Hn; f_equal; lia).
    rewrite E in E'. injection E' as E'. rewrite E' in EM.
    pose proof (C41_computed true ud ovl nu na nb (fun _ _ => true) M Q (fun _ => eq_refl) (fun _ => eq_refl) (fun _ _ => eq_refl) (fun _ _ _ _ _ _ _ _ _ _ => eq_refl) EM Tovlp i j Hi Hj Hh eq_refl) as C.
    cbn [lookup] in C. rewrite G in C. destruct C as (_ & _ & C). rewrite C. eexists. split; [reflexivity|]. intros a b Ha Hb.
    assert (Npq : ne p = ne q) by (unfold Mz in Sz; destruct (ne p), (ne q), (ne i), (ne j); cbn [fst snd] in *; injection Hn as -> ->; f_equal; lia).
    unfold flat_dot. etransitivity; [symmetry; apply flat_inner|]. rewrite Npq at 2.
    destruct (Hpsi p a Hp ltac:(lia)) as (Mp & Vp & _). destruct (Hpsi q b Hq ltac:(lia)) as (Mq & Vq & _). destruct (Hpsi i a Hi Ha) as (_ & Vi & _). destruct (Hpsi j b Hj Hb) as (_ & Vj & _).
    transitivity (inner Rs (2 * n) (psi p a (Mz (ne p))) (psi q b (Mz (ne p)))); [apply (inner_ext Rs); [exact Vp|rewrite Npq; exact Vq]|].
    rewrite (ovl_const n (S_ p) (S_ q) (psi p a) (psi q b) (Mz (ne p)) (Mz (ne i)) Mp Mq); [|apply has_m; exact Hp|rewrite Npq; apply has_m; exact Hq|rewrite P1; apply has_m; exact Hi|rewrite Q1, Hn; apply has_m; exact Hj].
    apply (inner_ext Rs); intros d Hd.
    - rewrite (Vi d Hd). apply P4; [lia|rewrite P1; apply has_m; exact Hi|exact Hd].
    - rewrite (Vj d Hd), Hn. apply Q4; [lia|rewrite Q1; apply has_m; exact Hj|exact Hd].
  Qed.
End Main.
