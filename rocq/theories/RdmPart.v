(** What one table row adds to the density matrix of an SI root: the sum over the local states of its fragments. *)
From Coq Require Import List ZArith Bool Arith Lia Permutation Ring.
From Verif Require Import Base BaseFacts Star AddrModel AddrFacts AddrSpec AddrProofs TransFacts ExcModel UexcModel StdmModel StdmFacts StdmSum CrunchModel HamModel HamLoop RdmModel RdmSums RdmFdm.
Import ListNotations.
Local Open Scope nat_scope.

Definition inter (l e e' : list nat) : list nat := flat_map (fun f => [nth f e 0; nth f e' 0]) l.
Lemma evens_inter l e e' : evens (inter l e e') = sel e l.
Proof. induction l as [|f l IH]; cbn; [reflexivity|]. now f_equal. Qed.
Lemma odds_inter l e e' : odds (inter l e e') = sel e' l.
Proof. induction l as [|f l IH]; cbn; [reflexivity|]. now f_equal. Qed.
Lemma unique_in inv f : In f (inv_unique inv) <-> In f inv.
Proof.
  unfold inv_unique. assert (G : forall l seen, In f (inv_unique_from seen l) <-> In f l /\ ~ In f seen); [|rewrite G; cbn; tauto].
  induction l as [|a l IH]; intros seen; cbn [inv_unique_from]; [cbn; tauto|]. destruct (existsb (Nat.eqb a) seen) eqn:E.
  - apply existsb_exists in E as (b & Hb & E). apply Nat.eqb_eq in E as <-. rewrite IH. cbn. split; [tauto|]. intros [[<-|H] N]; [contradiction|tauto].
  - assert (Na : ~ In a seen) by (intros C; assert (existsb (Nat.eqb a) seen = true) by (apply existsb_exists; exists a; split; [exact C|apply Nat.eqb_refl]); congruence).
    cbn. rewrite IH. cbn. destruct (Nat.eq_dec a f) as [->|N]; [tauto|]. intuition.
Qed.
Lemma unique_nodup inv : NoDup (inv_unique inv).
Proof.
  unfold inv_unique. generalize (@nil nat). induction inv as [|a l IH]; intros seen; cbn [inv_unique_from]; [constructor|]. destruct (existsb (Nat.eqb a) seen); [apply IH|]. constructor; [|apply IH].
  intros C. assert (G : forall l seen f, In f (inv_unique_from seen l) -> ~ In f seen).
  { clear. induction l as [|b l IH]; intros seen f; cbn [inv_unique_from]; [intros []|]. destruct (existsb (Nat.eqb b) seen) eqn:E; [apply IH|]. intros [<-|H].
    - intros C. assert (existsb (Nat.eqb b) seen = true) by (apply existsb_exists; exists b; split; [exact C|apply Nat.eqb_refl]); congruence.
    - apply IH in H. intros C. apply H. now right. }
  apply G in C. apply C. now left.
Qed.

Section Part.
  Context {K : star_ring}.
  Add Ring Kring : (sring K).
  (** bra and ket state of one fragment after the other *)
  Fixpoint tsum (cb ck l : list nat) (F : list nat -> list nat -> K) (e e' : list nat) : K :=
    match l with [] => F e e' | f :: r => bsum (seq 0 (nth f cb 0)) (fun x => bsum (seq 0 (nth f ck 0)) (fun y => tsum cb ck r F (put f x e) (put f y e'))) end.
  Lemma tsum_nsum cb ck l F : forall e e', tsum cb ck l F e e' = nsum cb l (fun a => nsum ck l (fun b => F a b) e') e.
  Proof.
    induction l as [|f l IH]; intros e e'; cbn [tsum nsum]; [reflexivity|]. apply bsum_ext. intros x _. rewrite nsum_bsum. apply bsum_ext. intros y _. apply IH.
  Qed.
  Lemma tsum_ext cb ck l (F G : list nat -> list nat -> K) e e' : (forall f, In f l -> f < length e) -> (forall f, In f l -> f < length e') -> NoDup l ->
    (forall a b, length a = length e -> length b = length e' -> (forall f, In f l -> nth f a 0 < nth f cb 0) -> (forall f, In f l -> nth f b 0 < nth f ck 0) ->
       (forall f, ~ In f l -> nth f a 0 = nth f e 0) -> (forall f, ~ In f l -> nth f b 0 = nth f e' 0) -> F a b = G a b) -> tsum cb ck l F e e' = tsum cb ck l G e e'.
  Proof. intros H1 H2 Hd H. rewrite !tsum_nsum. apply nsum_ext; try assumption. intros a La Ra Oa. apply nsum_ext; try assumption. intros b Lb Rb Ob. now apply H. Qed.
  Lemma nsum_col col col' l (F : list nat -> K) : (forall f, In f l -> nth f col 0 = nth f col' 0) -> forall e, nsum col l F e = nsum col' l F e.
  Proof. induction l as [|f l IH]; intros H e; cbn [nsum]; [reflexivity|]. rewrite (H f) by now left. apply bsum_ext. intros v _. apply IH. intros g Hg. apply H. now right. Qed.

  Variables (half : K) (big : K -> bool) (pyset : list nat -> list nat) (lroots : list (list nat)).
  Variables (ovlp : nat -> nat -> nat -> list (list K)) (spin_shuffle : nat -> K) (frag_shuffle : nat -> list nat -> K).
  Let n := length lroots.
  Let nroots := length (hd [] lroots).
  Let col r := column lroots r.
  Hypothesis Hpos : forall r f, r < nroots -> f < n -> 0 < nth f (col r) 0.
  Hypothesis Hset : forall l, NoDup (pyset l) /\ forall f, In f (pyset l) <-> In f l.
  Hypothesis Hpy : forall l l', (forall f, In f l -> f < n) -> (forall f, In f l <-> In f l') -> pyset l = pyset l'.
  Hypothesis Hov : forall f b k, f < n -> b < nroots -> k < nroots -> shaped (ovlp f b k) (nth f (col b) 0) (nth f (col k) 0).
  Notation fval := (fdm_value half big pyset lroots ovlp spin_shuffle frag_shuffle).
  Notation lstd := (listed half big pyset lroots ovlp spin_shuffle frag_shuffle).
  Variables (sb sk : list (list K)).
  Hypothesis Wb : wide lroots sb.
  Hypothesis Wk : wide lroots sk.
  Hypothesis Lb : 0 < length sb.
  Hypothesis Lk : 0 < length sk.
  Variable dict : list ((nat * nat * list nat) * list (nat * nat)).

  Lemma fill_range r fr e : r < nroots -> (forall f, In f fr -> f < n) -> (forall f, In f fr -> nth f e 0 < nth f (col r) 0) -> in_range (col r) (zeroed lroots fr e).
  Proof.
    intros Hr Hfr H. apply in_range_nth. unfold zeroed. rewrite map_length, seq_length. unfold col at 1. rewrite col_len. split; [reflexivity|]. intros f Hf. unfold col in Hf. rewrite col_len in Hf. fold n in Hf. rewrite nth_map_seq0 by exact Hf.
    destruct (existsb (Nat.eqb f) fr) eqn:E; [|now apply Hpos]. apply existsb_exists in E as (g & Hg & E). apply Nat.eqb_eq in E as <-. now apply H.
  Qed.
  Section Row.
    Variables (rb rk : nat) (fr inv : list nat) (images : list (nat * nat)).
    Hypothesis Hrb : rb < nroots.
    Hypothesis Hrk : rk < nroots.
    Hypothesis Hfr : forall f, In f fr -> f < n.
    Hypothesis Hinv : forall f, In f inv <-> In f fr.
    Hypothesis Hkey : get_key (rb, rk, fr) dict = Some images.
    Hypothesis Him : forall p, In p images -> fst p < nroots /\ snd p < nroots /\ (forall f, In f fr -> nth f (col rb) 0 = nth f (col (fst p)) 0) /\ (forall f, In f fr -> nth f (col rk) 0 = nth f (col (snd p)) 0).
    Let u := inv_unique inv.
    Lemma u_in f : In f u <-> In f fr.
    Proof. unfold u. rewrite unique_in. apply Hinv. Qed.
    Lemma get_fdm_ok root : root < length sb -> root < length sk -> exists fd, get_fdm half big pyset lroots ovlp spin_shuffle frag_shuffle dict sb sk root rb rk inv fr = Ok fd /\
      forall e e', (forall f, In f fr -> nth f e 0 < nth f (col rb) 0) -> (forall f, In f fr -> nth f e' 0 < nth f (col rk) 0) ->
        fd (inter (rev u) e e') = bsum images (fun p => fval sb sk root (fst p) (snd p) fr (zeroed lroots fr e) (zeroed lroots fr e')).
    Proof.
      intros Hr Hr'. unfold get_fdm. rewrite Hkey. fold u.
      assert (G : forall im, (forall p, In p im -> In p images) -> exists parts, mapM (fun p => fdm_1space half big pyset lroots ovlp spin_shuffle frag_shuffle sb sk (fst p) (snd p) u) im = Ok parts /\
        Forall2 (fun p q => fst q = (prodN (sel (col rb) u), prodN (sel (col rk) u)) /\ forall e e', (forall f, In f fr -> nth f e 0 < nth f (col rb) 0) -> (forall f, In f fr -> nth f e' 0 < nth f (col rk) 0) ->
          snd q root (pack (col rb) u e) (pack (col rk) u e') = fval sb sk root (fst p) (snd p) fr (zeroed lroots fr e) (zeroed lroots fr e')) im parts).
      { induction im as [|[b1 k1] im IH]; intros H; cbn [mapM]; [exists []; split; [reflexivity|constructor]|].
        destruct (Him (b1, k1) (H _ (or_introl eq_refl))) as (H1 & H2 & S1 & S2). cbn [fst snd] in H1, H2, S1, S2 |- *.
        destruct (fdm_1space_ok half big pyset lroots ovlp spin_shuffle frag_shuffle Hpos Hset Hpy Hov sb sk b1 k1 u fr Wb Wk Lb Lk H1 H2 (unique_nodup inv) Hfr u_in) as (F & EF & VF).
        rewrite EF. cbn [bind]. destruct (IH (fun p Hp => H p (or_intror Hp))) as (parts & EP & FP). rewrite EP. cbn [bind]. eexists. split; [reflexivity|]. constructor; [|exact FP]. cbn [fst snd].
        assert (E1 : forall q q', (forall f, In f fr -> nth f (col q) 0 = nth f (col q') 0) -> sel (col q) u = sel (col q') u) by (intros q q' E; apply map_ext_in; intros f If; apply E; now apply u_in).
        split; [f_equal; f_equal; symmetry; now apply E1|]. intros e e' R R'.
        assert (Rz : in_range (col b1) (zeroed lroots fr e)) by (apply fill_range; auto; intros f If; rewrite <- S1 by exact If; now apply R).
        assert (Rz' : in_range (col k1) (zeroed lroots fr e')) by (apply fill_range; auto; intros f If; rewrite <- S2 by exact If; now apply R').
        rewrite <- (VF root _ _ Hr Hr' Rz Rz'). f_equal; apply pack_ext; intros f If; apply u_in in If; auto; symmetry; (apply zeroed_in; [now apply Hfr|exact If]). }
      destruct (G images (fun p Hp => Hp)) as (parts & EP & FP). rewrite EP. cbn [bind].
      assert (Pr : forall l, prodN (rev l) = prodN l) by (intros l; apply prodN_perm, Permutation_sym, Permutation_rev).
      assert (Ed : forall r, map (fun f => nl lroots f r) (rev u) = rev (sel (col r) u)) by (intros r; apply map_rev).
      rewrite !Ed, !Pr.
      replace (forallb _ parts) with true.
      2:{ symmetry. apply forallb_forall. intros q Iq. clear -FP Iq. induction FP as [|p q' l l' H FP IH]; [destruct Iq|]. destruct Iq as [<-|Iq]; [|now apply IH]. destruct H as [H _]. rewrite H. cbn [fst snd]. now rewrite !Nat.eqb_refl. }
      eexists. split; [reflexivity|]. intros e e' R R'. cbn beta. rewrite evens_inter, odds_inter. 
      assert (Es : forall x, sel x (rev u) = rev (sel x u)) by (intros x; apply map_rev). rewrite !Es, !ravel_rev by (unfold sel; now rewrite !map_length).
      fold (pack (col rb) u e) (pack (col rk) u e'). clear -FP R R'. induction FP as [|p q l l' H FP IH]; [reflexivity|]. cbn [bsum]. rewrite IH. f_equal. now apply H.
    Qed.

    (** the sum over the local states is the sum over all pairs of states of the images *)
    Lemma row_sum root (D : list nat -> list nat -> K) : root < length sb -> root < length sk -> (forall e e' a a', (forall f, In f fr -> nth f e 0 = nth f a 0) -> (forall f, In f fr -> nth f e' 0 = nth f a' 0) -> D e e' = D a a') ->
      tsum (col rb) (col rk) (rev u) (fun e e' => smul (bsum images (fun p => fval sb sk root (fst p) (snd p) fr (zeroed lroots fr e) (zeroed lroots fr e'))) (D e e')) (repeat 0 n) (repeat 0 n) =
      bsum images (fun p => bsum (idxs (col (fst p))) (fun g => bsum (idxs (col (snd p))) (fun g' =>
        smul (smul (sconj (coeff lroots sb root (fst p) g)) (coeff lroots sk root (snd p) g')) (smul (D (zeroed lroots fr g) (zeroed lroots fr g')) (lstd (fst p) (snd p) fr g g'))))).
    Proof.
      intros Hr Hr' HD. rewrite tsum_nsum.
      assert (Du : NoDup (rev u)) by (apply NoDup_rev, unique_nodup).
      assert (Lu : forall f, In f (rev u) -> f < length (repeat 0 n)) by (intros f If; rewrite repeat_length; apply Hfr, u_in; now apply in_rev).
      transitivity (nsum (col rb) (rev u) (fun a => nsum (col rk) (rev u) (fun b => bsum images (fun p => smul (fval sb sk root (fst p) (snd p) fr (zeroed lroots fr a) (zeroed lroots fr b)) (D a b))) (repeat 0 n)) (repeat 0 n)).
      { apply nsum_ext; auto. intros a _ _ _. apply nsum_ext; auto. intros b _ _ _. apply bsum_mul_r. }
      transitivity (nsum (col rb) (rev u) (fun a => bsum images (fun p => nsum (col rk) (rev u) (fun b => smul (fval sb sk root (fst p) (snd p) fr (zeroed lroots fr a) (zeroed lroots fr b)) (D a b)) (repeat 0 n))) (repeat 0 n)).
      { apply nsum_ext; auto. intros a _ _ _. apply nsum_bsum. }
      rewrite nsum_bsum. apply bsum_ext. intros [b1 k1] Ip. destruct (Him _ Ip) as (H1 & H2 & S1 & S2). cbn [fst snd] in *.
      set (sp := StdmSum.spectators n fr).
      assert (Dsp : NoDup sp) by (apply NoDup_filter, seq_NoDup).
      assert (Hsp : forall f, In f sp <-> f < n /\ ~ In f fr) by (intros f; apply (in_spec' lroots)).
      assert (Cov : Permutation (seq 0 n) (rev u ++ sp)).
      { apply NoDup_Permutation; [apply seq_NoDup| |].
        - apply NoDup_app_intro; [exact Du|exact Dsp|]. intros f I1 I2. apply Hsp in I2 as [_ I2]. apply I2, u_in. now apply in_rev.
        - intros f. rewrite in_seq, in_app_iff, <- in_rev, u_in, Hsp. split; [|intros [I|[I _]]; [apply Hfr in I; lia|lia]]. intros H. destruct (in_dec Nat.eq_dec f fr); [now left|right; split; [lia|assumption]]. }
      assert (Hz : forall a f, length a = n -> f < n -> nth f (zeroed lroots fr a) 0 = if in_dec Nat.eq_dec f fr then nth f a 0 else 0).
      { intros a f _ Hf. destruct (in_dec Nat.eq_dec f fr); [now apply zeroed_in|now apply zeroed_out]. }
      assert (Zid : forall a, length a = n -> (forall f, ~ In f (rev u) -> nth f a 0 = nth f (repeat 0 n) 0) -> zeroed lroots fr a = a).
      { intros a La O. apply (nth_ext _ _ 0 0); [unfold zeroed; rewrite map_length, seq_length; now symmetry|]. unfold zeroed at 1. rewrite map_length, seq_length. fold n. intros f Hf. rewrite Hz by assumption.
        destruct (in_dec Nat.eq_dec f fr) as [I|I]; [reflexivity|]. rewrite O by (rewrite <- in_rev, u_in; exact I). now rewrite nth_repeat. }
      etransitivity; [apply (nsum_col (col rb) (col b1)); intros f If; apply S1, u_in; now apply in_rev|].
      assert (Lc : forall q, length (col q) = n) by (intros q; apply col_len).
      rewrite nsum_idxs, (Lc b1). rewrite (nsum_perm (col b1) _ _ _ Cov) by apply seq_NoDup. rewrite nsum_app.
      apply nsum_ext; auto. intros a La Ra Oa. rewrite repeat_length in La.
      etransitivity; [apply (nsum_col (col rk) (col k1)); intros f If; apply S2, u_in; now apply in_rev|].
      (* both sides: all sums in one order *)
      set (F := fun g g' => smul (smul (sconj (coeff lroots sb root b1 g)) (lstd b1 k1 fr g g')) (coeff lroots sk root k1 g')).
      transitivity (nsum (col k1) (rev u) (fun b => nsum (col b1) sp (fun g => nsum (col k1) sp (fun g' => smul (F g g') (D a b)) b) a) (repeat 0 n)).
      { apply nsum_ext; auto. intros b Lb' _ Ob. rewrite repeat_length in Lb'. unfold fdm_value. fold n sp (col b1) (col k1). rewrite (Zid a La Oa), (Zid b Lb' Ob).
        assert (M : forall cl l (H : list nat -> K) c e, smul (nsum cl l H e) c = nsum cl l (fun e => smul (H e) c) e).
        { intros cl l H c e. transitivity (smul c (nsum cl l H e)); [ring|]. rewrite nsum_mul_l. revert e. induction l as [|f l IH]; intros e; cbn [nsum]; [ring|]. apply bsum_ext. intros v _. apply IH. }
        rewrite M. apply nsum_ext; [intros f If; apply Hsp in If; lia|exact Dsp|]. intros g _ _ _. rewrite M. reflexivity. }
      rewrite nsum_swap. apply nsum_ext; [intros f If; apply Hsp in If; lia|exact Dsp|]. intros g Lg Rg Og.
      rewrite nsum_idxs, (Lc k1). rewrite (nsum_perm (col k1) _ _ _ Cov) by apply seq_NoDup. rewrite nsum_app.
      apply nsum_ext; auto. intros b Lb' _ Ob. rewrite repeat_length in Lb'. apply nsum_ext; [intros f If; apply Hsp in If; lia|exact Dsp|]. intros g' Lg' Rg' Og'.
      unfold F. rewrite (HD (zeroed lroots fr g) (zeroed lroots fr g') a b); [ring| |].
      - intros f If. rewrite zeroed_in by auto. apply Og. intros C. apply Hsp in C. tauto.
      - intros f If. rewrite zeroed_in by auto. apply Og'. intros C. apply Hsp in C. tauto.
    Qed.
  End Row.
End Part.
