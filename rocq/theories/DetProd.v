(** addr_outer_product and _ci_outer_product (op_o0.py). *)
From Coq Require Import List Arith Bool Lia Ring Sorting.Sorted.
From Verif Require Import Base BaseFacts Star SignsModel AddrSpec DetModel DetFacts DetDummy DetSpinless DetSpec.
Import ListNotations.
Local Open Scope nat_scope.

Definition fpairs := list (nat * nat).
Definition tot_n (fs : fpairs) := sumN (map fst fs).
Definition tot_e (fs : fpairs) := sumN (map snd fs).

Lemma sumN_cons x l : sumN (x :: l) = x + sumN l.
Proof. reflexivity. Qed.

Lemma made_of_len fs s : made_of fs s -> length s = tot_n fs /\ count s = tot_e fs.
Proof.
  intros (ps & H & ->). unfold tot_n, tot_e. induction H as [|f p fs ps [H1 H2] H IH]; cbn [map concat]; auto.
  rewrite app_length, count_app, !sumN_cons. lia.
Qed.

Lemma in_fprod fs : forall s, In s (fprod fs) <-> made_of fs s.
Proof.
  induction fs as [|[n e] fs IH]; intros s; cbn [fprod].
  - split.
    + intros [<-|[]]. exists []; split; [constructor|reflexivity].
    + intros (ps & H & ->). inversion H. left; reflexivity.
  - rewrite in_flat_map. split.
    + intros (t & Ht & H). apply in_map_iff in H as (p & <- & Hp). apply IH in Ht as (ps & H & ->).
      apply in_strs in Hp. exists (p :: ps). split; [constructor; auto|reflexivity].
    + intros (ps & H & ->). inversion H as [|? p ? ps' Hp H']; subst. exists (concat ps'). split.
      * apply IH. exists ps'; auto.
      * apply in_map_iff. exists p; split; auto. apply in_strs; auto.
Qed.

Lemma fprod_sorted fs : StronglySorted ltv (fprod fs).
Proof.
  induction fs as [|[n e] fs IH]; cbn [fprod].
  - repeat constructor.
  - apply (SS_flat_map ltv ltv _ _ IH).
    + intros t _. apply (SS_map ltv); [apply strs_sorted|]. intros x y Hx Hy. unfold ltv.
      apply in_strs in Hx as [Hx _]. apply in_strs in Hy as [Hy _]. rewrite !val_app, Hx, Hy. lia.
    + intros t t' u v _ _ Htt Hu Hv. apply in_map_iff in Hu as (x & <- & Hx). apply in_map_iff in Hv as (y & <- & Hy).
      unfold ltv in *. apply in_strs in Hx as [Hx _]. apply in_strs in Hy as [Hy _].
      rewrite !val_app, Hx, Hy. pose proof (val_lt x) as V. rewrite Hx in V.
      assert (2 ^ n * (val t + 1) <= 2 ^ n * val t') by (apply Nat.mul_le_mono_l; lia). lia.
Qed.

Lemma fprod_exists fs : Forall (fun f => snd f <= fst f) fs -> exists s, made_of fs s.
Proof.
  induction 1 as [|[n e] fs H HF (s & ps & Hs & ->)]; [exists []; exists []; split; [constructor|auto]|].
  cbn [fst snd] in H. exists (concat ((repeat true e ++ repeat false (n - e)) :: ps)).
  exists ((repeat true e ++ repeat false (n - e)) :: ps). split; auto. constructor; auto.
  cbn [fst snd]. rewrite app_length, !repeat_length, count_app. split; [lia|].
  assert (C1 : forall k, count (repeat true k) = k) by (induction k; cbn; lia).
  assert (C0 : forall k, count (repeat false k) = 0) by (induction k; cbn; lia).
  rewrite C1, C0. lia.
Qed.

Lemma map_addr_sorted N E l : StronglySorted ltv l -> (forall s, In s l -> length s = N /\ count s = E) ->
  StronglySorted lt (map (addr N E) l).
Proof.
  intros H HI. apply (SS_map ltv); auto. intros x y Hx Hy. apply HI in Hx, Hy. apply addr_mono; tauto.
Qed.

(** *** the loop *)
Fixpoint chk (fs : fpairs) (t : det) : bool :=
  match fs with
  | [] => true
  | (n, e) :: r => (Nat.eqb e 0 || Nat.eqb (count (firstn n t)) e) && chk r (skipn n t)
  end.

Lemma count_split n t : count (firstn n t) + count (skipn n t) = count t.
Proof. rewrite <- count_app, firstn_skipn; auto. Qed.

Lemma chk_ge fs : forall t, chk fs t = true -> tot_e fs <= count t.
Proof.
  induction fs as [|[n e] fs IH]; intros t H; [unfold tot_e; cbn; lia|].
  cbn [chk] in H. apply andb_prop in H as [H1 H2]. apply IH in H2. unfold tot_e in *. cbn [map snd]. rewrite sumN_cons.
  pose proof (count_split n t). apply orb_prop in H1 as [H1|H1]; apply Nat.eqb_eq in H1; lia.
Qed.

Lemma chk_made fs : forall t, length t = tot_n fs -> count t = tot_e fs -> chk fs t = true -> made_of fs t.
Proof.
  induction fs as [|[n e] fs IH]; intros t Hn He H.
  - exists []; split; [constructor|]. destruct t; [auto|discriminate].
  - cbn [chk] in H. apply andb_prop in H as [H1 H2].
    unfold tot_n, tot_e in Hn, He. cbn [map fst snd] in Hn, He. rewrite sumN_cons in Hn, He.
    fold (tot_n fs) in Hn. fold (tot_e fs) in He.
    pose proof (chk_ge fs _ H2) as G. pose proof (count_split n t) as C.
    assert (E1 : count (firstn n t) = e).
    { apply orb_prop in H1 as [H1|H1]; apply Nat.eqb_eq in H1; lia. }
    destruct (IH (skipn n t)) as (ps & Hps & E); [rewrite skipn_length; lia|lia|auto|].
    exists (firstn n t :: ps). split.
    + constructor; auto. cbn [fst snd]. rewrite firstn_length. split; [lia|auto].
    + cbn [concat]. rewrite <- E, firstn_skipn; auto.
Qed.

Lemma made_chk fs : forall t, made_of fs t -> chk fs t = true.
Proof.
  induction fs as [|[n e] fs IH]; intros t (ps & H & ->); auto.
  inversion H as [|? p ? ps' [Hp1 Hp2] H']; subst. cbn [fst snd] in *. cbn [chk concat].
  rewrite firstn_app, <- Hp1, Nat.sub_diag. cbn [firstn]. rewrite app_nil_r, firstn_all.
  rewrite skipn_app, skipn_all, Nat.sub_diag. cbn [skipn app].
  rewrite IH by (exists ps'; auto). rewrite Hp2, Nat.eqb_refl, orb_true_r. reflexivity.
Qed.

Lemma intersect_in a b x : In x (intersect1d a b) <-> In x a /\ In x b.
Proof.
  unfold intersect1d. rewrite filter_In, andb_true_iff, !existsb_exists. split.
  - intros [_ [(y & Hy & Ey) (z & Hz & Ez)]]. apply Nat.eqb_eq in Ey, Ez. subst; auto.
  - intros [Ha Hb]. split; [|split; eexists; split; eauto; apply Nat.eqb_refl].
    apply in_seq. assert (x <= list_max a); [|lia].
    pose proof (proj1 (list_max_le a (list_max a)) (Nat.le_refl _)) as F. rewrite Forall_forall in F. auto.
Qed.
Lemma intersect_sorted a b : StronglySorted lt (intersect1d a b).
Proof. apply SS_filter, SS_seq. Qed.

Section Loop.
Variables N E : nat.

Definition sel (P : det -> bool) : list nat := map (addr N E) (filter P (strs N E)).

Lemma sel_sorted P : StronglySorted lt (sel P).
Proof.
  apply map_addr_sorted; [apply SS_filter, strs_sorted|]. intros s Hs.
  apply filter_In in Hs as [Hs _]. apply in_strs in Hs; auto.
Qed.
Lemma in_sel P x : In x (sel P) <-> exists s, length s = N /\ count s = E /\ P s = true /\ addr N E s = x.
Proof.
  unfold sel. rewrite in_map_iff. split.
  - intros (s & <- & Hs). apply filter_In in Hs as [Hs HP]. apply in_strs in Hs as [? ?]. exists s; auto.
  - intros (s & H1 & H2 & H3 & <-). exists s; split; auto. apply filter_In; split; auto. apply in_strs; auto.
Qed.
Lemma sel_inter P Q : intersect1d (sel P) (sel Q) = sel (fun s => P s && Q s).
Proof.
  apply SS_lt_unique; [apply intersect_sorted|apply sel_sorted|]. intros x. rewrite intersect_in, !in_sel. split.
  - intros [(s & H1 & H2 & H3 & E1) (t & H4 & H5 & H6 & E2)].
    assert (s = t) as -> by (apply (addr_inj N E); congruence). exists t. rewrite H3, H6. auto.
  - intros (s & H1 & H2 & H3 & E1). apply andb_prop in H3 as [H3 H4]. split; exists s; auto.
Qed.
Lemma sel_ext P Q : (forall s, length s = N -> count s = E -> P s = Q s) -> sel P = sel Q.
Proof.
  intros H. unfold sel. f_equal. apply filter_ext_in. intros s Hs. apply in_strs in Hs as [? ?]. auto.
Qed.

(** [P]: the constraints applied so far; [nz]: some constraint has been applied *)
Lemma loop_sel fs : forall lo P (nz : bool) addrs w,
  length w = N -> count w = E -> P w = true -> chk fs (skipn lo w) = true ->
  addrs = (if nz then sel P else []) -> (nz = false -> forall s, P s = true) ->
  outer_loop N E lo fs addrs
  = if nz || existsb (fun f => negb (Nat.eqb (snd f) 0)) fs
    then sel (fun s => P s && chk fs (skipn lo s)) else [].
Proof.
  induction fs as [|[n e] fs IH]; intros lo P nz addrs w Hw1 Hw2 HP Hc Ha Hz; cbn [outer_loop existsb].
  - rewrite orb_false_r. subst addrs. destruct nz; auto. apply sel_ext. intros. cbn [chk]. rewrite andb_true_r; auto.
  - cbn [snd]. cbn [chk] in Hc. apply andb_prop in Hc as [Hc1 Hc2].
    assert (SK : forall s : det, skipn n (skipn lo s) = skipn (lo + n) s).
    { intros s. rewrite Nat.add_comm. clear. revert s. induction lo; intros s.
      - cbn [skipn]. rewrite Nat.add_0_r; auto.
      - rewrite Nat.add_succ_r. destruct s; cbn [skipn]; [destruct n; auto|]. auto. }
    rewrite SK in Hc2.
    destruct (Nat.eqb_spec e 0) as [->|He]; cbn [negb orb andb] in *.
    + assert (EA : match addrs with [] => [] | _ => addrs end = addrs) by (destruct addrs; auto).
      rewrite EA. rewrite (IH (lo + n) P nz addrs w); auto.
      destruct (nz || _); auto. apply sel_ext. intros. cbn [chk]. rewrite SK. reflexivity.
    + set (Q := fun s => Nat.eqb (count_in lo n s) e).
      assert (NQ : sub_addrs N E lo n e = sel Q) by reflexivity. rewrite NQ.
      assert (Qw : Q w = true). { exact Hc1. }
      assert (NE : forall R : det -> bool, R w = true -> sel R <> []).
      { intros R HR C. assert (In (addr N E w) (sel R)) by (apply in_sel; exists w; auto). rewrite C in H; destruct H. }
      assert (EA : match addrs with [] => sel Q | _ => match sel Q with [] => addrs | _ => intersect1d addrs (sel Q) end end
                   = sel (fun s => P s && Q s)).
      { destruct nz; subst addrs.
        - destruct (sel P) eqn:EP; [exfalso; apply (NE P); auto|]. rewrite <- EP.
          destruct (sel Q) eqn:EQ; [exfalso; apply (NE Q); auto|]. rewrite <- EQ. apply sel_inter.
        - apply sel_ext. intros. rewrite Hz; auto. }
      rewrite EA, orb_true_r.
      rewrite (IH (lo + n) (fun s => P s && Q s) true _ w); auto; [|rewrite HP, Qw; auto|discriminate].
      cbn [orb]. apply sel_ext. intros s Hs1 Hs2. cbn [chk].
      rewrite SK. rewrite (proj2 (Nat.eqb_neq e 0) He). cbn [orb]. unfold Q, count_in. rewrite andb_assoc; auto.
Qed.
End Loop.

Lemma combine_map_fst {A B} (l1 : list A) : forall l2 : list B, length l1 = length l2 -> map fst (combine l1 l2) = l1.
Proof. induction l1; intros [|b l2] H; cbn in *; try discriminate; auto. f_equal; auto. Qed.
Lemma combine_map_snd {A B} (l1 : list A) : forall l2 : list B, length l1 = length l2 -> map snd (combine l1 l2) = l2.
Proof. induction l1; intros [|b l2] H; cbn in *; try discriminate; auto. f_equal; auto. Qed.

Lemma outer_product_list norb_f nelec_f : Forall2 (fun n e => e <= n) norb_f nelec_f ->
  addr_outer_product norb_f nelec_f
  = map (addr (sumN norb_f) (sumN nelec_f)) (fprod (combine norb_f nelec_f)).
Proof.
  intros H. set (fs := combine norb_f nelec_f).
  assert (L : length norb_f = length nelec_f) by (eapply Forall2_length; eauto).
  assert (EN : sumN norb_f = tot_n fs) by (unfold tot_n, fs; rewrite combine_map_fst; auto).
  assert (EE : sumN nelec_f = tot_e fs) by (unfold tot_e, fs; rewrite combine_map_snd; auto).
  assert (F : Forall (fun f => snd f <= fst f) fs).
  { unfold fs. clear -H. induction H; cbn; constructor; auto. }
  destruct (fprod_exists fs F) as (w & Hw). destruct (made_of_len _ _ Hw) as [Hw1 Hw2].
  unfold addr_outer_product. fold fs. rewrite EN, EE.
  rewrite (loop_sel (tot_n fs) (tot_e fs) fs 0 (fun _ => true) false [] w); auto.
  2:{ cbn [skipn]. apply made_chk; auto. }
  cbn [orb andb skipn].
  assert (ES : sel (tot_n fs) (tot_e fs) (fun s => chk fs s) = map (addr (tot_n fs) (tot_e fs)) (fprod fs)).
  { apply SS_lt_unique.
    - apply sel_sorted.
    - apply map_addr_sorted; [apply fprod_sorted|]. intros s Hs. apply made_of_len, in_fprod; auto.
    - intros x. rewrite in_sel, in_map_iff. split.
      + intros (s & H1 & H2 & H3 & <-). exists s; split; auto. apply in_fprod, chk_made; auto.
      + intros (s & <- & Hs). apply in_fprod in Hs. exists s. destruct (made_of_len _ _ Hs).
        rewrite made_chk; auto. }
  destruct (existsb _ fs) eqn:EX.
  - cbn [andb] in ES |- *. rewrite ES.
    destruct (map (addr (tot_n fs) (tot_e fs)) (fprod fs)) eqn:EM; auto.
    apply map_eq_nil in EM. apply in_fprod in Hw. rewrite EM in Hw. destruct Hw.
  - (* no electrons at all: a single string *)
    rewrite <- ES. assert (E0 : tot_e fs = 0).
    { unfold tot_e. clear -EX. induction fs as [|[n e] fs IH]; auto. cbn in EX. apply orb_false_elim in EX as [E1 E2].
      cbn [map snd]. rewrite sumN_cons, IH; auto. apply negb_false_iff, Nat.eqb_eq in E1. lia. }
    assert (EU : forall s, chk fs s = true).
    { clear -EX. induction fs as [|[n e] fs IH]; auto. cbn in EX. apply orb_false_elim in EX as [E1 E2].
      intros s. cbn [chk]. rewrite IH; auto. apply negb_false_iff in E1. rewrite E1. reflexivity. }
    unfold sel. rewrite (filter_ext _ (fun _ => true) EU). rewrite E0.
    assert (G : forall n, map (addr n 0) (filter (fun _ => true) (strs n 0)) = [0]).
    { intros n. replace (filter (fun _ : det => true) (strs n 0)) with (strs n 0).
      - pose proof (strs_length n 0) as Hl. rewrite num_0_r in Hl.
        destruct (strs n 0) as [|s [|]] eqn:Es; try discriminate. cbn [map]. f_equal.
        assert (In s (strs n 0)) by (rewrite Es; left; auto). apply in_strs in H0 as [A1 A2].
        pose proof (addr_lt n 0 s A1 A2) as B. rewrite num_0_r in B. lia.
      - induction (strs n 0); cbn; auto. f_equal; auto. }
    rewrite G; auto.
Qed.

(** *** product vectors *)
Section Amp.
Context {K : star_ring}.
Add Ring Kr : (sring K).

Definition dpr (l : list (frag K)) (last : frag K) := fold_right (fun f dp => dp_step dp f) (f_ci last) l.

Lemma ci_dp_eq l last : ci_dp (l ++ [last]) = Ok (dpr l last).
Proof.
  unfold ci_dp, dpr. rewrite rev_app_distr. cbn [rev app]. f_equal.
  rewrite <- fold_left_rev_right, rev_involutive. reflexivity.
Qed.

Lemma ci_dp_nil : ci_dp (K:=K) [] = Raise IndexError.
Proof. reflexivity. Qed.

Definition cm (g : frag K -> nat) (h : choice K -> nat) (cs : list (choice K)) :=
  colmajor (map (fun c => g (c_f c)) cs) (map h cs).
Definition c_aa (c : choice K) := addr (f_norb (c_f c)) (f_na (c_f c)) (c_sa c).
Definition c_ab (c : choice K) := addr (f_norb (c_f c)) (f_nb (c_f c)) (c_sb c).

Lemma cm_cons g h c cs : cm g h (c :: cs) = h c + g (c_f c) * cm g h cs.
Proof. reflexivity. Qed.

Lemma div_cm d x y : x < d -> (x + d * y) / d = y.
Proof. intros H. rewrite Nat.mul_comm, Nat.div_add by lia. rewrite Nat.div_small; lia. Qed.
Lemma mod_cm d x y : x < d -> (x + d * y) mod d = x.
Proof. intros H. rewrite Nat.mul_comm, Nat.mod_add by lia. apply Nat.mod_small; auto. Qed.

Lemma dpr_at cs c0 : Forall good_choice (cs ++ [c0]) ->
  dpr (map c_f cs) (c_f c0) (cm f_l c_l (cs ++ [c0])) (cm f_da c_aa (cs ++ [c0])) (cm f_db c_ab (cs ++ [c0]))
  = fold_right smul s1 (map amplitude (cs ++ [c0])).
Proof.
  induction cs as [|c cs IH]; intros H.
  - cbn [app map dpr fold_right]. rewrite !cm_cons. unfold cm. cbn [map colmajor].
    rewrite !Nat.mul_0_r, !Nat.add_0_r. unfold amplitude, c_aa, c_ab. ring.
  - cbn [app] in *. apply Forall_cons_iff in H as [Hc H]. specialize (IH H).
    cbn [map dpr fold_right]. fold (dpr (map c_f cs) (c_f c0)). rewrite !cm_cons.
    destruct Hc as (L & A1 & A2 & B1 & B2).
    assert (La : c_aa c < f_da (c_f c)) by (apply addr_lt; auto).
    assert (Lb : c_ab c < f_db (c_f c)) by (apply addr_lt; auto).
    unfold dp_step. rewrite !div_cm, !mod_cm by auto. rewrite IH. unfold amplitude at 2.
    fold (c_aa c) (c_ab c). ring.
Qed.

Lemma nth_fprod (g : choice K -> nat) (h : choice K -> det) cs :
  Forall (fun c => length (h c) = f_norb (c_f c) /\ count (h c) = g c) cs ->
  nth_error (fprod (map (fun c => (f_norb (c_f c), g c)) cs))
    (colmajor (map (fun c => num_strings (f_norb (c_f c)) (g c)) cs)
              (map (fun c => addr (f_norb (c_f c)) (g c) (h c)) cs))
  = Some (concat (map h cs)).
Proof.
  induction 1 as [|c cs [Hc1 Hc2] H IH]; [reflexivity|]. cbn [map fprod colmajor concat].
  pose proof (addr_nth _ _ _ Hc1 Hc2) as A. pose proof (addr_lt _ _ _ Hc1 Hc2) as B.
  set (L := fprod _) in *. set (k := colmajor _ _) in *. set (a := addr _ _ _) in *.
  set (S0 := strs _ _) in *. rewrite <- strs_length in B |- *. fold S0 in B |- *.
  set (v := concat _) in *. clearbody L k a S0 v. clear -IH A B.
  revert k IH. induction L as [|t L IHL]; intros k IH; [destruct k; discriminate|].
  cbn [flat_map]. destruct k as [|k]; cbn in IH.
  - injection IH as ->. rewrite Nat.mul_0_r, Nat.add_0_r. rewrite nth_error_app1 by (rewrite map_length; auto).
    apply (map_nth_error (fun s => s ++ v)); auto.
  - rewrite nth_error_app2; rewrite map_length; [|rewrite Nat.mul_succ_r; lia].
    replace (a + length S0 * S k - length S0) with (a + length S0 * k) by (rewrite Nat.mul_succ_r; lia). auto.
Qed.

Lemma combine_map {A B C} (f : A -> B) (g : A -> C) l : combine (map f l) (map g l) = map (fun x => (f x, g x)) l.
Proof. induction l; cbn; auto. f_equal; auto. Qed.

Lemma feasible_choices (g : frag K -> nat) h cs :
  Forall (fun c => length (h c : det) = f_norb (c_f c) /\ count (h c) = g (c_f c)) cs ->
  Forall2 (fun n e => e <= n) (map f_norb (map c_f cs)) (map g (map c_f cs)).
Proof.
  induction 1 as [|c cs [H1 H2] H IH]; cbn [map]; constructor; auto. rewrite <- H1, <- H2. apply count_le.
Qed.

Lemma outer_nodup norb_f nelec_f : Forall2 (fun n e => e <= n) norb_f nelec_f -> NoDup (addr_outer_product norb_f nelec_f).
Proof.
  intros H. rewrite outer_product_list by auto. apply SS_lt_NoDup, map_addr_sorted; [apply fprod_sorted|].
  intros s Hs. apply in_fprod, made_of_len in Hs. unfold tot_n, tot_e in Hs.
  rewrite combine_map_fst, combine_map_snd in Hs by (eapply Forall2_length; eauto). auto.
Qed.

Lemma index_addr (g : frag K -> nat) (h : choice K -> det) cs :
  Forall (fun c => length (h c) = f_norb (c_f c) /\ count (h c) = g (c_f c)) cs ->
  index_of (addr (sumN (map f_norb (map c_f cs))) (sumN (map g (map c_f cs))) (concat (map h cs)))
           (addr_outer_product (map f_norb (map c_f cs)) (map g (map c_f cs)))
  = Some (cm (fun f => num_strings (f_norb f) (g f)) (fun c => addr (f_norb (c_f c)) (g (c_f c)) (h c)) cs).
Proof.
  intros H. pose proof (feasible_choices g h cs H) as F. apply index_of_nth; [apply outer_nodup; auto|].
  rewrite outer_product_list by auto.
  apply (map_nth_error (addr (sumN (map f_norb (map c_f cs))) (sumN (map g (map c_f cs))))).
  rewrite !map_map, combine_map. unfold cm. apply (nth_fprod (fun c => g (c_f c))). auto.
Qed.

Lemma not_made_none norb_f nelec_f u : Forall2 (fun n e => e <= n) norb_f nelec_f ->
  length u = sumN norb_f -> count u = sumN nelec_f -> ~ made_of (combine norb_f nelec_f) u ->
  index_of (addr (sumN norb_f) (sumN nelec_f) u) (addr_outer_product norb_f nelec_f) = None.
Proof.
  intros F H1 H2 H. apply index_of_None. rewrite outer_product_list by auto. intros HI.
  apply in_map_iff in HI as (s & Es & Hs). apply in_fprod in Hs. pose proof (made_of_len _ _ Hs) as [L1 L2].
  unfold tot_n, tot_e in L1, L2. rewrite combine_map_fst in L1 by (eapply Forall2_length; eauto).
  rewrite combine_map_snd in L2 by (eapply Forall2_length; eauto).
  apply addr_inj in Es; auto. subst; auto.
Qed.

Lemma outer_lt norb_f nelec_f x : Forall2 (fun n e => e <= n) norb_f nelec_f ->
  In x (addr_outer_product norb_f nelec_f) -> x < num_strings (sumN norb_f) (sumN nelec_f).
Proof.
  intros F. rewrite outer_product_list by auto. intros HI. apply in_map_iff in HI as (s & <- & Hs).
  apply in_fprod, made_of_len in Hs as [L1 L2]. unfold tot_n, tot_e in L1, L2.
  rewrite combine_map_fst in L1 by (eapply Forall2_length; eauto).
  rewrite combine_map_snd in L2 by (eapply Forall2_length; eauto). apply addr_lt; auto.
Qed.

(** scattered sum = full sum *)
Lemma bsum_scatter (l : list nat) n (f : nat -> K) (F : nat -> K) : NoDup l -> (forall x, In x l -> x < n) ->
  (forall i x, nth_error l i = Some x -> F x = f i) -> (forall x, x < n -> ~ In x l -> F x = s0) ->
  bsum (seq 0 (length l)) f = bsum (seq 0 n) F.
Proof.
  intros HN HL H1 H2. rewrite (bsum_support K Nat.eq_dec (seq 0 n) l); auto.
  - clear -H1. revert f H1. induction l as [|x l IH]; intros f H1; auto.
    cbn [length seq]. rewrite <- seq_shift. cbn [bsum]. rewrite bsum_map. rewrite (H1 0 x) by reflexivity. f_equal.
    apply IH. intros i y Hy. apply (H1 (S i)); auto.
  - apply seq_NoDup.
  - intros x Hx. apply in_seq. apply HL in Hx; lia.
  - intros x Hx. apply in_seq in Hx. apply H2; lia.
Qed.

Lemma dotter_eq (fs : list (frag K)) (c1 : mat K) dp g :
  Forall2 (fun n e => e <= n) (map f_norb fs) (map f_na fs) ->
  Forall2 (fun n e => e <= n) (map f_norb fs) (map f_nb fs) ->
  ci_dp fs = Ok dp -> ci_outer_product fs = Ok g ->
  forall l,
  bsum (seq 0 (length (addrs_a fs))) (fun i => bsum (seq 0 (length (addrs_b fs))) (fun j =>
     smul (dp l i j) (c1 (nth i (addrs_a fs) 0) (nth j (addrs_b fs) 0))))
  = bsum (seq 0 (num_strings (sumN (map f_norb fs)) (sumN (map f_na fs)))) (fun a =>
    bsum (seq 0 (num_strings (sumN (map f_norb fs)) (sumN (map f_nb fs)))) (fun b => smul (g l a b) (c1 a b))).
Proof.
  intros Fa Fb Hdp Hg l. unfold ci_outer_product in Hg. rewrite Hdp in Hg. cbn [bind] in Hg. injection Hg as <-.
  unfold addrs_a, addrs_b. apply bsum_scatter.
  - apply outer_nodup; auto.
  - intros x; apply outer_lt; auto.
  - intros i a Ha. rewrite (index_of_nth _ _ _ (outer_nodup _ _ Fa) Ha).
    rewrite (nth_error_nth _ _ _ Ha). symmetry. apply bsum_scatter.
    + apply outer_nodup; auto.
    + intros x; apply outer_lt; auto.
    + intros j b Hb. rewrite (index_of_nth _ _ _ (outer_nodup _ _ Fb) Hb). rewrite (nth_error_nth _ _ _ Hb). auto.
    + intros b _ Hb. apply index_of_None in Hb. rewrite Hb. ring.
  - intros a _ Ha. apply index_of_None in Ha. apply bsum_0. intros b _. rewrite Ha. ring.
Qed.
End Amp.
