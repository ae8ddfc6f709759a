(** The tables of one fragment: every array is written, and holds the matrix elements of its operator. *)
From Coq Require Import List ZArith NArith Arith Bool Lia Ring.
From Verif Require Import Base Star FockSpec FockFacts FockOps LprodSpec LasFock LasElem DetModel DetFacts CrunchModel CrunchSpec CrunchFacts HalfSpec HalfModel HalfFacts HalfFun.
Import ListNotations.
Local Open Scope nat_scope.

Lemma mapM_all {A B} (f : A -> res B) (Q : A -> B -> Prop) l : (forall x, In x l -> exists y, f x = Ok y /\ Q x y) -> exists ys, mapM f l = Ok ys /\ length ys = length l /\ forall i dx dy, i < length l -> Q (nth i l dx) (nth i ys dy).
Proof.
  induction l as [|x l IH]; intros H; [exists []; repeat split; cbn; intros; lia|]. destruct (H x (or_introl eq_refl)) as (y & Ey & Qy). destruct IH as (ys & E & L & I); [intros z Hz; apply H; right; exact Hz|].
  exists (y :: ys). cbn [mapM]. rewrite Ey. cbn [bind]. rewrite E. cbn [bind length]. repeat split; [lia|]. intros [|i] dx dy Hi; cbn [nth]; [exact Qy|]. apply I. lia.
Qed.
Lemma foldM_app {A S} (f : A -> S -> res S) a l s : foldM f (a :: l) s = do s' <- f a s ;; foldM f l s'.
Proof.
  unfold foldM. cbn [fold_left bind]. destruct (f a s) as [s'|e]; [reflexivity|]. cbn [bind].
  induction l as [|b l IH]; [reflexivity|]. cbn [fold_left bind]. exact IH.
Qed.

Section Dms.
  Context {K : star_ring}.
  Add Ring Kr : (sring K).
  Notation mat := (DetModel.mat K).
  Notation arr := (@arr K).
  Variables (norb nu : nat) (uaddr : nat -> nat) (ne : nat -> nat * nat) (nl : nat -> nat) (ci : nat -> nat -> mat) (small : K -> bool).
  Hypothesis real : forall x : K, sconj x = x.
  Hypothesis small0 : small s0 = true.
  Hypothesis addr_le : forall a b, a <= b -> uaddr a <= uaddr b.
  Hypothesis nl_pos : forall u, u < nu -> 0 < nl u.
  Hypothesis fits : forall u, u < nu -> fst (ne u) <= norb /\ snd (ne u) <= norb.

  Definition E2 (b k i j : nat) (ops : list opr) : K := melem2 norb (ne b) (ne k) (ci b i) (ci k j) ops.
  Definition holds (t : tag) (b k i j : nat) (T : arr) : Prop :=
    match t with
    | Tdm1 => forall s p q, s < 2 -> p < norb -> q < norb -> T [s; p; q] = E2 b k i j (xops (X1 s (0, p) (0, q)))
    | Tdm2 => forall c p q r u, c < 4 -> p < norb -> q < norb -> r < norb -> u < norb -> T [c; p; q; r; u] = E2 b k i j (xops (X2 c (0, p) (0, q) (0, r) (0, u)))
    | Th s => forall p, p < norb -> T [p] = E2 b k i j [an s (0, p)]
    | Tphh s => forall t h p q, t < 2 -> h < norb -> p < norb -> q < norb -> T [t; h; p; q] = E2 b k i j [cr t (0, p); an t (0, q); an s (0, h)]
    | Tsm => forall p q, p < norb -> q < norb -> T [p; q] = E2 b k i j [cr 1 (0, p); an 0 (0, q)]
    | Thh c => forall p q, p < norb -> q < norb -> T [p; q] = E2 b k i j [an (c - c / 2) (0, p); an (c / 2) (0, q)]
    end.
  Definition right (t : tag) (b k : nat) (x : nat -> nat -> arr) : Prop := forall i j, i < nl b -> j < nl k -> holds t b k i j (x i j).
  Definition good (m : store) : Prop := forall t b k x, m t b k = Some x -> right t b k x.
  Definition grows (m m' : @store K) : Prop := forall t b k, m t b k <> None -> m' t b k <> None.

  Lemma tag_eqb_eq a b : tag_eqb a b = true -> a = b.
  Proof. destruct a, b; cbn; try discriminate; intros H; try reflexivity; apply Nat.eqb_eq in H; now subst. Qed.
  Lemma tag_eqb_refl a : tag_eqb a a = true.
  Proof. destruct a; cbn; auto using Nat.eqb_refl. Qed.
  Lemma put_good t b k x m : good m -> right t b k x -> good (put t b k x m).
  Proof.
    intros G R t' b' k' x'. unfold put. destruct (tag_eqb t t' && (b =? b') && (k =? k')) eqn:E; [|apply G].
    apply andb_prop in E as [E E3]. apply andb_prop in E as [E1 E2']. apply tag_eqb_eq in E1. apply Nat.eqb_eq in E2', E3. subst. intros [= <-]. exact R.
  Qed.
  Lemma put_grows t b k x (m : @store K) : grows m (put t b k x m).
  Proof. intros t' b' k' H. unfold put. destruct (_ && _); [discriminate|exact H]. Qed.
  Lemma put_here t b k x (m : @store K) : put t b k x m t b k <> None.
  Proof. unfold put. rewrite tag_eqb_refl, !Nat.eqb_refl. discriminate. Qed.
  Lemma grows_trans a b c : grows a b -> grows b c -> grows a c.
  Proof. unfold grows. auto. Qed.

  (** what a step of a loop does *)
  Definition does (f : store -> res store) (b k : nat) (ts : list tag) : Prop := forall m, good m -> exists m', f m = Ok m' /\ good m' /\ grows m m' /\ forall t, In t ts -> m' t b k <> None.
  Lemma fold_does (f : nat * nat -> store -> res store) ts l : (forall p, In p l -> does (f p) (fst p) (snd p) (ts p)) ->
    forall m, good m -> exists m', foldM f l m = Ok m' /\ good m' /\ grows m m' /\ forall p t, In p l -> In t (ts p) -> m' t (fst p) (snd p) <> None.
  Proof.
    induction l as [|p l IH]; intros H m G; [exists m; split; [reflexivity|split; [exact G|split; [intros t b k X; exact X|intros p t []]]]|].
    destruct (H p (or_introl eq_refl) m G) as (m1 & E1 & G1 & W1 & D1). destruct (IH (fun q Hq => H q (or_intror Hq)) m1 G1) as (m2 & E2' & G2 & W2 & D2).
    exists m2. rewrite foldM_app, E1. cbn [bind]. split; [exact E2'|split; [exact G2|split; [exact (grows_trans _ _ _ W1 W2)|]]]. intros q t [<-|Hq] Ht; [apply W2, D1, Ht|now apply D2].
  Qed.

  Lemma loop2_all {X} (d : X) b k g (Q : nat -> nat -> X -> Prop) : (forall i j, i < nl b -> j < nl k -> exists x, g (ci b i) (ci k j) = Ok x /\ Q i j x) ->
    exists x, loop2 nl ci d b k g = Ok x /\ forall i j, i < nl b -> j < nl k -> Q i j (x i j).
  Proof.
    intros H. unfold loop2.
    destruct (mapM_all (fun i => mapM (fun j => g (ci b i) (ci k j)) (seq 0 (nl k))) (fun i row => forall j, j < nl k -> Q i j (nth j row d)) (seq 0 (nl b))) as (rows & E & L & I).
    - intros i Hi. apply in_seq in Hi. destruct (mapM_all (fun j => g (ci b i) (ci k j)) (Q i) (seq 0 (nl k))) as (row & E & L & I).
      + intros j Hj. apply in_seq in Hj. apply H; lia.
      + exists row. split; [exact E|]. intros j Hj. specialize (I j 0 d). rewrite seq_length in I. specialize (I Hj). rewrite seq_nth in I by lia. exact I.
    - rewrite E. cbn [bind]. eexists. split; [reflexivity|]. intros i j Hi Hj. specialize (I i 0 []). rewrite seq_length in I. specialize (I Hi). rewrite seq_nth in I by lia. apply I. exact Hj.
  Qed.

  Lemma hop_iff b k x y : hop_is ne b k x y = true <-> (Z.of_nat (fst (ne b)) - Z.of_nat (fst (ne k)) = x)%Z /\ (Z.of_nat (snd (ne b)) - Z.of_nat (snd (ne k)) = y)%Z.
  Proof. unfold hop_is, hop. cbn [fst snd]. rewrite andb_true_iff, !Z.eqb_eq. reflexivity. Qed.

  Lemma does_dm b k : k <= b -> hop_is ne b k 0 0 = true -> does (fill_dm norb uaddr ne nl ci b k) b k [Tdm1; Tdm2].
  Proof.
    intros Hle H m G. apply hop_iff in H as [Ha Hb]. assert (E : ne b = ne k) by (destruct (ne b), (ne k); cbn in *; f_equal; lia).
    unfold fill_dm. destruct (loop2_all (a0, a0) b k (fun u v => Ok (trans_rdm12s u v norb (ne k))) (fun i j x => x = trans_rdm12s (ci b i) (ci k j) norb (ne k))) as (x & Ex & Hx); [eauto|].
    rewrite Ex. cbn [bind]. assert (L : (uaddr k <=? uaddr b) = true) by (apply Nat.leb_le, addr_le, Hle). rewrite L. cbn [py_assert].
    eexists. split; [reflexivity|]. repeat split.
    - apply put_good; [apply put_good; [exact G|]|]; intros i j Hi Hj; rewrite Hx by auto; cbn [fst snd trans_rdm12s holds].
      + intros s p q _ _ _. unfold tpose, ix. unfold axis. cbn -[melem xops]. unfold E2. rewrite E. reflexivity.
      + intros c p q r u _ _ _ _ _. unfold ix. cbn [nth]. unfold E2. rewrite E. reflexivity.
    - eapply grows_trans; apply put_grows.
    - intros t [<-|[<-|[]]]; [apply put_grows|]; apply put_here.
  Qed.
  Lemma anti_last b k i j s p q r : s < 2 -> p < norb -> q < norb -> r < norb ->
    sadd (E2 b k i j [cr s (0, q); an s (0, r); an s (0, p)]) (E2 b k i j [cr s (0, q); an s (0, p); an s (0, r)]) = s0.
  Proof.
    intros Hs Hp Hq Hr. unfold E2. rewrite (melem2_anti norb (ne b) (ne k) (ci b i) (ci k j) [cr s (0, q); an s (0, r); an s (0, p)] [cr s (0, q); an s (0, p); an s (0, r)]); [ring|].
    intros d. cbn [lops fold_right cr an fst snd field]. unfold cre. destruct (bt d _); [|ring]. rewrite (ann_ann K (2 * norb)) by (apply lorb_lt2; assumption). unfold sg. destruct (above _ _ _); ring.
  Qed.
  Lemma does_h s b k : s < 2 -> b < nu -> k < nu -> hop_is ne b k (if (s =? 0)%nat then -1 else 0)%Z (if (s =? 0)%nat then 0 else -1)%Z = true -> does (fill_h norb ne nl ci small s b k) b k [Th s; Tphh s].
  Proof.
    intros Hs Hb Hk H m G. apply hop_iff in H as [Ha Hb'].
    assert (Hn : 0 < (if s =? 0 then fst (ne k) else snd (ne k))) by (destruct (s =? 0); lia).
    assert (E : lower_nelec s (ne k) = ne b) by (unfold lower_nelec; destruct (ne b), (ne k); destruct (s =? 0); cbn in *; f_equal; lia).
    unfold fill_h. destruct (loop2_all (a0, a0, a0) b k (fun u v => trans_rdm13hs false u v norb (ne k) s (Some (norb + 1, ne k)))
      (fun i j x => (forall r, r < norb -> fst (fst x) [r] = E2 b k i j [an s (0, r)]) /\ forall t h p q, t < 2 -> h < norb -> p < norb -> q < norb -> stack (snd (fst x)) (snd x) [t; h; p; q] = E2 b k i j [cr t (0, p); an t (0, q); an s (0, h)])) as (x & Ex & Hx).
    { intros i j Hi Hj. destruct (rdm13_des real s norb (ne k) (ci b i) (ci k j) (Some (norb + 1, ne k)) Hs Hn (or_intror eq_refl)) as (h & a & b' & R1 & R2 & R3 & R4). exists (h, a, b'). split; [exact R1|]. cbn [fst snd]. unfold E2. rewrite <- E.
      split; [exact R2|]. intros t h' p q Ht Hh Hp Hq. unfold stack. cbn [hd tl]. destruct t as [|[|t]]; [| |lia]; cbn [Nat.eqb]; [now apply R3|now apply R4]. }
    rewrite Ex. cbn [bind].
    assert (Z : (nl b =? 0) || (nl k =? 0) || (norb =? 0) = false).
    { pose proof (nl_pos b Hb). pose proof (nl_pos k Hk). destruct (fits k Hk). rewrite !orb_false_iff, !Nat.eqb_neq. repeat split; try lia. destruct (s =? 0); lia. }
    rewrite Z. match goal with |- context [py_assert ?c _] => assert (A : c = true) end.
    { apply forallb_forall. intros i Hi. apply in_seq in Hi. apply forallb_forall. intros j Hj. apply in_seq in Hj. apply forallb_forall. intros p Hp. apply in_seq in Hp. apply forallb_forall. intros q Hq. apply in_seq in Hq. apply forallb_forall. intros r Hr. apply in_seq in Hr.
      destruct (Hx i j ltac:(lia) ltac:(lia)) as [_ Hphh]. rewrite !Hphh by lia. rewrite anti_last by lia. exact small0. }
    rewrite A. cbn [py_assert]. eexists. split; [reflexivity|]. repeat split.
    - apply put_good; [apply put_good; [exact G|]|]; intros i j Hi Hj; destruct (Hx i j Hi Hj) as [H1 H2]; [exact H1|exact H2].
    - eapply grows_trans; apply put_grows.
    - intros t [<-|[<-|[]]]; [apply put_grows|]; apply put_here.
  Qed.
  Lemma does_sm b k : hop_is ne b k (-1) 1 = true -> does (fill_sm norb ne nl ci b k) b k [Tsm].
  Proof.
    intros H m G. apply hop_iff in H as [Ha Hb]. assert (E : (fst (ne k) - 1, snd (ne k) + 1) = ne b) by (destruct (ne b), (ne k); cbn in *; f_equal; lia).
    unfold fill_sm. destruct (loop2_all a0 b k (fun u v => trans_sfddm1 u v norb (ne k) (Some (norb + 1, (fst (ne k), snd (ne k) + 1)))) (fun i j x => holds Tsm b k i j x)) as (x & Ex & Hx).
    { intros i j Hi Hj. destruct (sfd real norb (ne k) (ci b i) (ci k j) (Some (norb + 1, (fst (ne k), snd (ne k) + 1)))) as (x & Ex & Hx); [lia|auto|]. exists x. split; [exact Ex|]. cbn [holds]. unfold E2. rewrite <- E. exact Hx. }
    rewrite Ex. cbn [bind]. eexists. split; [reflexivity|]. repeat split; [apply put_good; [exact G|exact Hx]|apply put_grows|]. intros t [<-|[]]. apply put_here.
  Qed.
  Lemma does_hh c b k : c < 3 -> hop_is ne b k (Z.of_nat c - 2) (- Z.of_nat c) = true -> does (fill_hh norb ne nl ci c b k) b k [Thh c].
  Proof.
    intros Hc H m G. apply hop_iff in H as [Ha Hb]. assert (E : (fst (ne k) - (2 - c), snd (ne k) - c) = ne b) by (destruct (ne b), (ne k); cbn [fst snd] in *; f_equal; lia).
    unfold fill_hh. destruct (loop2_all a0 b k (fun u v => trans_hhdm u v norb (ne k) c (Some (norb + (2 - c mod 2), ne k))) (fun i j x => holds (Thh c) b k i j x)) as (x & Ex & Hx).
    { intros i j Hi Hj. destruct (hhdm real c norb (ne k) (ci b i) (ci k j) (Some (norb + (2 - c mod 2), ne k)) Hc) as (x & Ex & Hx); [lia|lia|auto|]. exists x. split; [exact Ex|]. cbn [holds]. unfold E2. rewrite <- E. exact Hx. }
    rewrite Ex. cbn [bind]. eexists. split; [reflexivity|]. repeat split; [apply put_good; [exact G|exact Hx]|apply put_grows|]. intros t [<-|[]]. apply put_here.
  Qed.
  Definition tags_a (b k : nat) : list tag :=
    if hop_is ne b k (-1) 0 then [Th 0; Tphh 0] else if hop_is ne b k (-1) 1 then [Tsm] else if hop_is ne b k (-1) (-1) then [Thh 1] else if hop_is ne b k (-2) 0 then [Thh 0] else [].
  Definition tags_b (b k : nat) : list tag := if hop_is ne b k 0 (-1) then [Th 1; Tphh 1] else if hop_is ne b k 0 (-2) then [Thh 2] else [].
  Lemma does_none b k : does (fun m => Ok m) b k [].
  Proof. intros m G. exists m. split; [reflexivity|split; [exact G|split; [intros t b' k' X; exact X|intros t []]]]. Qed.
  Lemma does_a b k : b < nu -> k < nu -> does (fill_a norb ne nl ci small b k) b k (tags_a b k).
  Proof.
    intros Hb Hk. unfold fill_a, tags_a. destruct (hop_is ne b k (-1) 0) eqn:E1; [now apply (does_h 0); auto|]. destruct (hop_is ne b k (-1) 1) eqn:E2'; [now apply does_sm|].
    destruct (hop_is ne b k (-1) (-1)) eqn:E3; [now apply (does_hh 1); auto|]. destruct (hop_is ne b k (-2) 0) eqn:E4; [now apply (does_hh 0); auto with arith|]. apply does_none.
  Qed.
  Lemma does_b b k : b < nu -> k < nu -> does (fill_b norb ne nl ci small b k) b k (tags_b b k).
  Proof.
    intros Hb Hk. unfold fill_b, tags_b. destruct (hop_is ne b k 0 (-1)) eqn:E1; [now apply (does_h 1); auto|]. destruct (hop_is ne b k 0 (-2)) eqn:E2'; [now apply (does_hh 2); auto|]. apply does_none.
  Qed.

  Theorem make_dms_ok : exists m, make_dms norb nu uaddr ne nl ci small = Ok m /\ good m /\
    (forall b k t, k <= b < nu -> hop_is ne b k 0 0 = true -> In t [Tdm1; Tdm2] -> m t b k <> None) /\
    (forall b k t, b < nu -> k < nu -> fst (ne b) < fst (ne k) -> In t (tags_a b k) -> m t b k <> None) /\
    (forall b k t, b < nu -> k < nu -> snd (ne b) < snd (ne k) -> In t (tags_b b k) -> m t b k <> None).
  Proof.
    unfold make_dms.
    destruct (fold_does (fun p => fill_dm norb uaddr ne nl ci (fst p) (snd p)) (fun _ => [Tdm1; Tdm2]) (filter (fun p => hop_is ne (fst p) (snd p) 0 0 && (snd p <=? fst p)) (list_prod (seq 0 nu) (seq 0 nu)))) with (m := fun (_ : tag) (_ _ : nat) => @None (nat -> nat -> arr)) as (m1 & E1 & G1 & _ & D1).
    { intros p Hp. apply filter_In in Hp as [_ Hp]. apply andb_prop in Hp as [H1 H2]. apply does_dm; [now apply Nat.leb_le|exact H1]. }
    { intros t b k x H. discriminate. }
    rewrite E1. cbn [bind].
    set (pairs := fun sp : Z * Z -> Z => flat_map (fun k => map (fun b => (b, k)) (filter (fun b => (sp (hop ne b k) <? 0)%Z) (seq 0 nu))) (filter (fun k => existsb (fun b => (sp (hop ne b k) <? 0)%Z) (seq 0 nu)) (seq 0 nu))).
    assert (IP : forall sp b k, In (b, k) (pairs sp) <-> b < nu /\ k < nu /\ (sp (hop ne b k) < 0)%Z).
    { intros sp b k. unfold pairs. rewrite in_flat_map. split.
      - intros (k' & Hk & Hb). apply filter_In in Hk as [Hk _]. apply in_map_iff in Hb as (b' & [= -> ->] & Hb). apply filter_In in Hb as [Hb Hlt]. apply in_seq in Hb, Hk. apply Z.ltb_lt in Hlt. repeat split; auto; lia.
      - intros (Hb & Hk & Hlt). exists k. split; [apply filter_In; split; [apply in_seq; lia|apply existsb_exists; exists b; split; [apply in_seq; lia|now apply Z.ltb_lt]]|]. apply in_map_iff. exists b. split; [reflexivity|]. apply filter_In. split; [apply in_seq; lia|now apply Z.ltb_lt]. }
    destruct (fold_does (fun p => fill_a norb ne nl ci small (fst p) (snd p)) (fun p => tags_a (fst p) (snd p)) (pairs fst)) with (m := m1) as (m2 & E2' & G2 & W2 & D2); [intros [b k] Hp; apply IP in Hp as (Hb & Hk & _); now apply does_a|exact G1|].
    fold (pairs fst). rewrite E2'. cbn [bind].
    destruct (fold_does (fun p => fill_b norb ne nl ci small (fst p) (snd p)) (fun p => tags_b (fst p) (snd p)) (pairs snd)) with (m := m2) as (m3 & E3 & G3 & W3 & D3); [intros [b k] Hp; apply IP in Hp as (Hb & Hk & _); now apply does_b|exact G2|].
    fold (pairs snd). rewrite E3. exists m3. split; [reflexivity|]. split; [exact G3|]. repeat split.
    - intros b k t Hle Hh Ht. apply W3, W2. apply (D1 (b, k)); [|exact Ht]. apply filter_In. split; [apply in_prod; apply in_seq; lia|]. cbn [fst snd]. rewrite Hh. cbn [andb]. apply Nat.leb_le. lia.
    - intros b k t Hb Hk Hlt Ht. apply W3. apply (D2 (b, k)); [|exact Ht]. apply IP. repeat split; auto. unfold hop. cbn [fst]. lia.
    - intros b k t Hb Hk Hlt Ht. apply (D3 (b, k)); [|exact Ht]. apply IP. repeat split; auto. unfold hop. cbn [snd]. lia.
  Qed.
End Dms.
