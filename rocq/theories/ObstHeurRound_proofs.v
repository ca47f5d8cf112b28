(** The obstacle heuristic with rounded sums. *)
From Coq Require Import Reals Lra Psatz.
From Verif Require Import Base RealBase Grid_model Grid_spec Grid_proofs Frontier_model Frontier_spec Frontier_proofs FrontierRel_proofs AStarN2_spec Coords_model ObstHeur_model ObstHeur_spec ObstHeur_proofs.
From Coq Require Import ZifyBool ZifyNat ZifyN Permutation.
Open Scope Z_scope.

Section Round.
  Context {C : Type}.
  Variables (ltb : C -> C -> bool) (add : C -> C -> C) (zero one diag : C) (good : C -> Prop) (val : C -> R).
  Hypothesis H_ltb : forall a b, good a -> good b -> ltb a b = true <-> (val a < val b)%R.
  Hypothesis H_zero : good zero.
  Hypothesis H_one : forall x, good x -> good (add one x) /\ (val x <= val (add one x))%R.
  Hypothesis H_diag : forall x, good x -> good (add diag x) /\ (val (add one x) <= val (add diag x))%R.
  Hypothesis H_mono : forall x y, good x -> good y -> (val x <= val y)%R -> (val (add diag x) <= val (add diag y))%R.
  Variables (m n : Z) (occ : cell -> res bool) (o : cell -> bool) (start : cell).
  Hypothesis OCC : answers m n occ o.

  (** The order by value, on all elements. *)
  Definition kltb (a b : C) : bool := Rltb (val a) (val b).
  Notation kcmp := (e_cmp kltb).
  Notation veq := (@e_eq C).
  Notation step := (grid_step m n o).

  Lemma kltb_true a b : kltb a b = true <-> (val a < val b)%R.
  Proof. unfold kltb, Rltb. destruct (Rlt_dec (val a) (val b)); split; auto; discriminate. Qed.
  Lemma kltb_false a b : kltb a b = false <-> (val b <= val a)%R.
  Proof. unfold kltb, Rltb. destruct (Rlt_dec (val a) (val b)); split; auto; try discriminate; lra. Qed.
  Lemma ltb_agree a b : good a -> good b -> ltb a b = kltb a b.
  Proof.
    intros Ga Gb. pose proof (H_ltb a b Ga Gb) as H. destruct (kltb a b) eqn:E; [apply kltb_true in E; now apply H|]. apply kltb_false in E.
    destruct (ltb a b); auto. assert (val a < val b)%R by now apply H. lra.
  Qed.

  Lemma kcmp_swo : strict_weak_order _ kcmp.
  Proof.
    split.
    - intros [c [x|]]; cbn; auto. apply kltb_false. lra.
    - intros [c [x|]] [c' [y|]] [c'' [z|]]; cbn; auto; try discriminate. rewrite !kltb_true. lra.
    - intros [c [x|]] [c' [y|]] [c'' [z|]]; cbn; auto; try discriminate. rewrite !kltb_false. lra.
  Qed.

  (** Elements with a usable cost. *)
  Definition same (a b : @elem C) : Prop := a = b /\ exists x, snd a = Some x /\ good x.
  Lemma same_eq v v' : Forall2 same v v' -> v = v'.
  Proof. induction 1 as [|a b v v' [H _] _ IH]; subst; auto. Qed.
  Lemma same_all v : (forall e, In e v -> exists x, snd e = Some x /\ good x) -> Forall2 same v v.
  Proof. induction v as [|a v IH]; intros H; constructor; [split; auto; apply H; now left|apply IH; intros; apply H; now right]. Qed.

  (** With usable costs, pushing is the same for both orders. *)
  Lemma push_same fr k x : finv kcmp veq fr -> (forall e, In e (vec fr) -> exists x, snd e = Some x /\ good x) -> good x ->
    match f_push kcmp veq (k, Some x) fr with Ok r => exists b, f_push (e_cmp ltb) veq (k, Some x) fr = Ok (b, snd r) | _ => True end.
  Proof.
    intros F G Gx. assert (P : res_rel (fun r r' => fr_rel _ _ same (snd r) (snd r')) (f_push (e_cmp ltb) veq (k, Some x) fr) (f_push kcmp veq (k, Some x) fr)).
    { apply push_rel.
      - intros a a' b b' (<- & y & Ey & Gy) (<- & z & Ez & Gz). unfold e_cmp. rewrite Ey, Ez. cbn. apply ltb_agree; auto.
      - intros a a' b b' (<- & _) (<- & _). reflexivity.
      - split; apply same_all; auto. intros e He. apply G. destruct F as (_ & _ & P). eapply Permutation_in; [|exact He]. now apply Permutation_sym.
      - split; auto. exists x. auto. }
    destruct (f_push kcmp veq _ fr) as [[b' fr']| | |]; auto. destruct (f_push (e_cmp ltb) veq _ fr) as [[b fr1]| | |]; cbn in P; try contradiction. destruct P as [P1 P2]. apply same_eq in P1, P2.
    exists b. destruct fr1, fr'; cbn in *; congruence.
  Qed.

  (** The sum of the steps of a walk, in the order of the code. *)
  Fixpoint sum (x : C) (p : cell) (l : list cell) : C :=
    match l with
    | [] => x
    | k :: l' => sum (add (if (row p =? row k) || (col p =? col k) then one else diag) x) k l'
    end.
  Lemma sum_snoc p l c k : walk m n o p l c -> forall x, sum x p (l ++ [k]) = add (if (row c =? row k) || (col c =? col k) then one else diag) (sum x p l).
  Proof. revert p. induction l as [|a l IH]; intros p; cbn; [now intros -> |]. intros [_ W] x. now apply IH. Qed.

  (** The cell [c] is stored with the cost [x]. *)
  Definition kept (st : ostate C) (c : cell) (x : C) : Prop :=
    grid_get (o_cost st) c = Ok (Some x) /\ good x /\ exists l, walk m n o start l c /\ x = sum zero start l.

  Record rinv (E : list cell) (L : C) (cur : cell) (todo : list cell) (fr : frontier elem) (st : ostate C) : Prop := {
    r_fr : finv kcmp veq fr;
    r_wc : gwf (o_cost st); r_rc : rows (o_cost st) = m; r_cc : columns (o_cost st) = n;
    r_we : gwf (o_explored st); r_re : rows (o_explored st) = m; r_ce : columns (o_explored st) = n;
    r_E : NoDup E; r_Ein : forall c, In c E -> inside m n c;
    r_expl : forall c, inside m n c -> exists b, grid_get (o_explored st) c = Ok b /\ (b = true <-> In c E);
    r_L : good L;
    r_F : forall c v, In (c, v) (vec fr) -> inside m n c /\ ~ In c E /\ exists x, v = Some x /\ kept st c x /\ (val L <= val x <= val (add diag L))%R;
    r_EX : forall c, In c E -> exists x, kept st c x /\ (val x <= val L)%R;
    r_none : forall c, inside m n c -> ~ In c E -> (forall v, ~ In (c, v) (vec fr)) -> grid_get (o_cost st) c = Ok None;
    r_step : forall c k, In c E -> step c k -> ~ (c = cur /\ In k todo) ->
      (In k E \/ exists v, In (k, v) (vec fr)) /\ forall x y, kept st c x -> kept st k y -> (val y <= val (add diag x))%R;
    r_start : In start E \/ exists v, In (start, v) (vec fr);
    r_szero : kept st start zero
  }.

  Lemma kept_fun st c x y : kept st c x -> kept st c y -> x = y.
  Proof. intros [E1 _] [E2 _]. congruence. Qed.

  Lemma rinv_good E L cur todo fr st : rinv E L cur todo fr st -> forall e, In e (vec fr) -> exists x, snd e = Some x /\ good x.
  Proof. intros I [c v] H. destruct (r_F _ _ _ _ _ _ I c v H) as (_ & _ & x & -> & (_ & G & _) & _). exists x. auto. Qed.

  Hypothesis Hs : inside m n start.

  Lemma visit_rinv E c k todo fr st x : rinv E x c (k :: todo) fr st -> In c E -> touches c k -> inside m n k -> ~ In k todo -> kept st c x ->
    exists fr' st', oh_visit ltb add zero one diag occ c (fr, st) k = Ok (fr', st') /\ rinv E x c todo fr' st' /\ kept st' c x.
  Proof.
    intros I Hc T Hk Nt Hx. pose proof (rinv_good _ _ _ _ _ _ I) as GF. pose proof I as []. destruct (skipped_spec m n occ o OCC c k (r_Ein0 c Hc) Hk T) as (b & Eb & Hb). unfold oh_visit. rewrite Eb. cbn [bind].
    destruct b.
    { exists fr, st. split; auto. split; auto. split; auto. intros c' k' Hc' S N. apply r_step0; auto. intros [-> [<-|H]]; [|now apply N]. apply Hb in S. discriminate. }
    assert (S : step c k) by now apply Hb. assert (Kx := Hx). destruct Hx as [Ec (Gx & l & Wl & Cl)]. rewrite Ec. cbn [bind option_map].
    set (t := if _ : bool then one else diag). destruct (H_one x Gx) as (G1 & V1). destruct (H_diag x Gx) as (G2 & V2).
    assert (Vt : good (add t x) /\ (val x <= val (add t x) <= val (add diag x))%R) by (unfold t; destruct (_ || _); split; auto; lra).
    destruct (r_expl0 k Hk) as (bk & Ek & Hbk).
    destruct (f_find veq (k, Some zero) fr) as [[k' v]|] eqn:Ef; pose proof (find_elem kltb fr k _ _ r_fr0 Ef) as Fd; cbn in Fd; rewrite Ek; cbn [bind].
    - destruct Fd as [-> Iv]. destruct (r_F0 k v Iv) as (_ & NE & y & -> & [Ey (Gy & Hy)] & By). rewrite Ey. cbn [bind]. cbn [snd v_gtb].
      assert (ltb y y = false) as -> by (rewrite ltb_agree by auto; apply kltb_false; lra). exists fr, st. split; auto. split; auto.
      split; auto. intros c' k' Hc' S' N. destruct (in_dec cell_dec k' (k :: todo)) as [Ik|Nk]; [|apply r_step0; auto; intros [_ H]; now apply Nk].
      destruct (cell_eqb c' c) eqn:Ecc.
      + apply cell_eqb_eq in Ecc as ->. destruct Ik as [<-|Ik]; [|exfalso; now apply N]. split; [right; eauto|]. intros x' y' Sx' [Sy' _]. assert (y' = y) as -> by congruence.
        assert (x' = x) as -> by (now apply (kept_fun st c)). lra.
      + apply r_step0; auto. intros [-> _]. rewrite cell_eqb_refl in Ecc. discriminate.
    - destruct bk.
      + assert (IE : In k E) by now apply Hbk. exists fr, st. split; auto. split; auto. split; auto. intros c' k' Hc' S' N.
        destruct (in_dec cell_dec k' (k :: todo)) as [Ik|Nk]; [|apply r_step0; auto; intros [_ H]; now apply Nk].
        destruct (cell_eqb c' c) eqn:Ecc.
        * apply cell_eqb_eq in Ecc as ->. destruct Ik as [<-|Ik]; [|exfalso; now apply N]. split; [now left|]. intros x' y' Sx' Sy'.
          assert (x' = x) as -> by (now apply (kept_fun st c)). destruct (r_EX0 k IE) as (z & Sz & Bz). assert (y' = z) as -> by (eapply kept_fun; eauto). lra.
        * apply r_step0; auto. intros [-> _]. rewrite cell_eqb_refl in Ecc. discriminate.
      + assert (NE : ~ In k E) by (rewrite <- Hbk; discriminate). set (v := add t x) in *. destruct Vt as (Gv & Vv).
        pose proof (f_push_spec kcmp veq kcmp_swo eq_equiv (k, Some v) fr r_fr0) as Ps.
        assert (Fn : find (veq (k, Some v)) (vec fr) = None).
        { destruct (find _ _) as [[a b]|] eqn:Fe; auto. exfalso. apply find_some in Fe as [Ia Ea]. unfold e_eq in Ea. cbn [fst] in Ea. apply cell_eqb_eq in Ea. subst a. now apply (Fd b). }
        rewrite Fn in Ps. destruct Ps as (fr' & Ep & Fi' & Fv'). pose proof (push_same fr k v r_fr0 GF Gv) as Q. rewrite Ep in Q. destruct Q as (b' & ->). cbn [bind snd].
        destruct (grid_set_spec (o_cost st) k (Some v) r_wc0) as (g & -> & Wg & Rg & Cg & Gg). { now rewrite r_rc0, r_cc0. }
        cbn [bind]. rewrite r_rc0, r_cc0 in Gg. exists fr', (OState g (o_explored st)). split; auto.
        assert (In' : forall a b, In (a, b) (vec fr') <-> (a, b) = (k, Some v) \/ In (a, b) (vec fr)).
        { intros a b. rewrite Fv'. pose proof (s_insert_perm kcmp (k, Some v) (vec fr)) as P. split; intros J.
          - apply (Permutation_in _ P) in J. destruct J as [<-|J]; auto.
          - apply (Permutation_in _ (Permutation_sym P)). destruct J as [->|J]; [now left|now right]. }
        assert (St : forall a z, a <> k -> inside m n a -> kept (OState g (o_explored st)) a z <-> kept st a z).
        { intros a z Na Ha. unfold kept. cbn [o_cost]. rewrite Gg by auto. destruct (cell_eqb k a) eqn:Ea; [apply cell_eqb_eq in Ea; congruence|reflexivity]. }
        assert (Sk : forall z, kept (OState g (o_explored st)) k z <-> z = v).
        { intros z. unfold kept. cbn [o_cost]. rewrite Gg by auto. rewrite cell_eqb_refl. split; [intros [E1 _]; congruence|]. intros ->. split; auto. split; auto.
          exists (l ++ [k]). split; [eapply walk_snoc; eauto|]. rewrite (sum_snoc start l c k Wl), <- Cl. reflexivity. }
        assert (Nck : c <> k) by (intros ->; contradiction).
        split; [|apply St; auto].
        split; cbn [o_cost o_explored]; auto; try congruence.
        * intros a b J. apply In' in J as [J|J].
          { injection J as -> ->. split; auto. split; auto. exists v. split; auto. split; [now apply Sk|lra]. }
          destruct (r_F0 a b J) as (Ha & Na & z & -> & Sz & Bz). split; auto. split; auto. exists z. split; auto. split; auto. apply St; auto. intros ->. now apply (Fd (Some z)).
        * intros a Ia. destruct (r_EX0 a Ia) as (z & Sz & Bz). exists z. split; auto. apply St; auto. congruence.
        * intros a Ha Na Nf. rewrite Gg by auto. destruct (cell_eqb k a) eqn:Ea. { apply cell_eqb_eq in Ea as <-. exfalso. apply (Nf (Some v)), In'. auto. }
          apply r_none0; auto. intros b J. apply (Nf b), In'. auto.
        * intros c' k' Hc' S' N. assert (Nc' : c' <> k) by congruence. destruct (cell_eqb k' k) eqn:Ekk.
          { apply cell_eqb_eq in Ekk as ->. split; [right; exists (Some v); apply In'; auto|]. intros x' y' Sx' Sy'. apply Sk in Sy' as ->. apply St in Sx'; auto.
            destruct (cell_eqb c' c) eqn:Ecc.
            - apply cell_eqb_eq in Ecc as ->. assert (x' = x) as -> by (now apply (kept_fun st c)). lra.
            - exfalso. destruct (r_step0 c' k Hc' S') as [[J|[w J]] _]; [intros [-> _]; rewrite cell_eqb_refl in Ecc; discriminate|contradiction|now apply (Fd w)]. }
          assert (Nk' : k' <> k) by (intros ->; rewrite cell_eqb_refl in Ekk; discriminate).
          destruct (r_step0 c' k' Hc' S') as [J B]. { intros [-> [J|J]]; [congruence|]. now apply N. }
          split. { destruct J as [J|[w J]]; auto. right. exists w. apply In'. auto. }
          intros x' y' Sx' Sy'. apply St in Sx', Sy'; auto. apply S'.
        * destruct r_start0 as [J|[w J]]; auto. right. exists w. apply In'. auto.
        * assert (start <> k) by (intros <-; destruct r_start0 as [J|[w J]]; [contradiction|now apply (Fd w)]). apply St; auto.
  Qed.

  Lemma visit_all_rinv E c x : In c E -> forall ks fr st, (forall k, In k ks -> touches c k /\ inside m n k) -> NoDup ks -> rinv E x c ks fr st -> kept st c x ->
    exists fr' st', oh_visit_all ltb add zero one diag occ c ks (fr, st) = Ok (fr', st') /\ rinv E x c [] fr' st'.
  Proof.
    intros Hc. induction ks as [|k ks IH]; intros fr st Hk ND I Hx; cbn [oh_visit_all]; [eauto|]. inversion ND; subst.
    destruct (Hk k) as [T Ik]; [now left|]. destruct (visit_rinv E c k ks fr st x) as (fr1 & st1 & -> & I1 & S1); auto. cbn [bind]. apply IH; auto. intros; apply Hk; now right.
  Qed.

  Lemma pop_rinv E L cur fr st : rinv E L cur [] fr st -> f_is_empty fr = false ->
    exists c x v fr1 e, f_pop veq fr = Ok ((c, v), fr1) /\ grid_set (o_explored st) c true = Ok e /\ inside m n c /\ ~ In c E /\
      kept (OState (o_cost st) e) c x /\ (forall ks, (forall k, In k ks <-> inside m n k /\ touches c k) -> rinv (c :: E) x c ks fr1 (OState (o_cost st) e)).
  Proof.
    intros I Hne. pose proof I as []. pose proof (f_pop_spec kcmp veq eq_equiv fr r_fr0) as Ps. destruct (rev (vec fr)) as [|[c v] r] eqn:Er.
    { exfalso. unfold f_is_empty in Hne. destruct (vec fr) as [|a l]; [discriminate|]. cbn in Er. now apply app_eq_nil in Er. }
    destruct Ps as (fr1 & Ep & Fi1 & Fv1). assert (Ev : vec fr = rev r ++ [(c, v)]) by (rewrite <- (rev_involutive (vec fr)), Er; reflexivity).
    assert (Icv : In (c, v) (vec fr)) by (rewrite Ev; apply in_or_app; cbn; auto). destruct (r_F0 c v Icv) as (Hc & Nc & x & -> & Sx & Bx).
    assert (Gx : good x) by apply Sx.
    destruct (grid_set_spec (o_explored st) c true r_we0) as (e & Ee & We & Re & Ce & Ge). { now rewrite r_re0, r_ce0. }
    rewrite r_re0, r_ce0 in Ge. exists c, x, (Some x), fr1, e. split; auto. split; auto. split; auto. split; auto. split; auto.
    assert (In1 : forall a b, In (a, b) (vec fr1) <-> In (a, b) (vec fr) /\ a <> c).
    { destruct r_fr0 as (Ord & D & _). rewrite Ev in D. apply FOP_app in D as (_ & _ & D). intros a b. rewrite Fv1, Ev, in_app_iff. split.
      - intros J. split; auto. intros ->. specialize (D (c, b) (c, Some x) J ltac:(now left)). unfold e_eq in D. cbn in D. rewrite cell_eqb_refl in D. discriminate.
      - intros [[J|[J|[]]] Na]; auto. congruence. }
    assert (Min : forall a b, In (a, b) (vec fr1) -> exists y, b = Some y /\ kept st a y /\ (val x <= val y <= val (add diag x))%R).
    { intros a b J. assert (J' := J). apply In1 in J' as [J' Na]. destruct (r_F0 a b J') as (Ha & _ & y & -> & Sy & By). exists y. split; auto. split; auto.
      split; [|pose proof (H_mono L x r_L0 Gx (proj1 Bx)); lra].
      pose proof (s_top_max kcmp veq kcmp_swo (vec fr) (c, Some x) r) as M. assert (K : kcmp (c, Some x) (a, Some y) = false). { apply M; auto. split; apply r_fr0. }
      cbn in K. now apply kltb_false in K. }
    intros ks Hks. split; cbn [o_cost o_explored]; auto; try congruence.
    - now constructor.
    - intros a [<-|J]; auto.
    - intros a Ha. rewrite Ge by auto. destruct (cell_eqb c a) eqn:Ea.
      + apply cell_eqb_eq in Ea as <-. exists true. split; auto. split; auto. intros _. now left.
      + destruct (r_expl0 a Ha) as (b & Eb & Hb). exists b. split; auto. rewrite Hb. split; [now right|]. intros [<-|J]; auto. rewrite cell_eqb_refl in Ea. discriminate.
    - intros a b J. destruct (Min a b J) as (y & -> & Sy & By). apply In1 in J as [J Na]. destruct (r_F0 a _ J) as (Ha & Ne & _). split; auto. split; [intros [<-|?]; auto|]. exists y. auto.
    - intros a [<-|J]; [exists x; split; auto; lra|]. destruct (r_EX0 a J) as (y & Sy & By). exists y. split; auto. lra.
    - intros a Ha Na Nf. apply r_none0; auto; [intros J; apply Na; now right|]. intros b J. apply (Nf b), In1. split; auto. intros ->. apply Na. now left.
    - intros c' k Hc' S N. destruct Hc' as [<-|Hc'].
      { exfalso. apply N. split; auto. apply Hks. split; [apply S|apply S]. }
      destruct (r_step0 c' k Hc' S) as [J B]. { intros [_ []]. }
      split; [|intros; apply B; auto]. destruct J as [J|[w J]]; [left; now right|]. destruct (cell_eqb k c) eqn:Ekc.
      + apply cell_eqb_eq in Ekc as ->. left. now left.
      + right. exists w. apply In1. split; auto. intros ->. rewrite cell_eqb_refl in Ekc. discriminate.
    - destruct r_start0 as [J|[w J]]; [left; now right|]. destruct (cell_eqb start c) eqn:Esc.
      + apply cell_eqb_eq in Esc as <-. left. now left.
      + right. exists w. apply In1. split; auto. intros ->. rewrite cell_eqb_refl in Esc. discriminate.
  Qed.

  Lemma explored_rbound E L cur fr st : rinv E L cur [] fr st -> (length E <= length (map_cells m n))%nat.
  Proof. intros []. apply NoDup_incl_length; auto. intros c Hc. apply map_cells_In. auto. Qed.

  Lemma loop_rinv fuel : forall E L cur fr st, rinv E L cur [] fr st -> (length (map_cells m n) < fuel + length E)%nat ->
    exists st' E' L' cur' fr', oh_loop ltb add zero one diag fuel m n occ (fr, st) = Ok st' /\ rinv E' L' cur' [] fr' st' /\ vec fr' = [].
  Proof.
    induction fuel as [|fuel IH]; intros E L cur fr st I Hf.
    { pose proof (explored_rbound _ _ _ _ _ I). lia. }
    cbn [oh_loop]. destruct (f_is_empty fr) eqn:Ee.
    { exists st, E, L, cur, fr. split; auto. split; auto. unfold f_is_empty in Ee. destruct (vec fr); auto; discriminate. }
    destruct (pop_rinv E L cur fr st I Ee) as (c & x & v & fr1 & e & -> & E2 & Hc & Nc & Sx & I1). cbn [bind fst]. rewrite E2. cbn [bind].
    destruct (get_neighbors_spec m n c Hc) as [ND Nb]. specialize (I1 (get_neighbors m n c) Nb).
    destruct (visit_all_rinv (c :: E) c x ltac:(now left) (get_neighbors m n c) fr1 (OState (o_cost st) e)) as (fr2 & st2 & -> & I2); auto.
    { intros k Hk. apply Nb in Hk. tauto. }
    cbn [bind]. apply (IH (c :: E) x c fr2 st2); auto. cbn [length]. lia.
  Qed.

  (** [k] diagonal steps. *)
  Fixpoint diagonals (k : nat) (x : C) : C := match k with O => x | S k' => diagonals k' (add diag x) end.
  Lemma diagonals_mono k : forall x y, good x -> good y -> (val x <= val y)%R -> (val (diagonals k x) <= val (diagonals k y))%R.
  Proof. induction k as [|k IH]; cbn; auto. intros x y Gx Gy H. apply IH; [apply H_diag|apply H_diag|apply H_mono]; auto. Qed.

  Lemma update_round st0 fuel : sized m n st0 -> (Z.to_nat m * Z.to_nat n < fuel)%nat ->
    exists st, oh_update ltb add zero one diag fuel m n occ start st0 = Ok st /\
      (forall c, inside m n c -> exists b, grid_get (o_explored st) c = Ok b /\ (b = true <-> exists l, walk m n o start l c)) /\
      (forall c, inside m n c -> (forall l, ~ walk m n o start l c) -> grid_get (o_cost st) c = Ok None) /\
      (forall c l, inside m n c -> walk m n o start l c -> exists x, grid_get (o_cost st) c = Ok (Some x) /\ good x /\
         (exists l', walk m n o start l' c /\ x = sum zero start l') /\ (val x <= val (diagonals (length l) zero))%R).
  Proof.
    intros ((W1 & R1 & C1) & W2 & R2 & C2) Hf. unfold oh_update, oh_reset. unfold value in *.
    destruct (@reset_writes (option C) (o_cost st0) None m n W1 R1 C1) as (g1 & -> & Wg & Rg & Cg & Gg). cbn [bind].
    destruct (reset_writes (o_explored st0) false m n W2 R2 C2) as (e1 & -> & We & Re & Ce & Ge). cbn [bind].
    assert (cell_is_valid start = true) as -> by (unfold cell_is_valid; destruct Hs; lia). cbn [negb].
    pose proof (f_push_spec kcmp veq kcmp_swo eq_equiv (start, Some zero) f_empty (finv_empty kcmp veq)) as Ps. cbn [f_empty vec find] in Ps. destruct Ps as (fr & Ep & Fi & Fv).
    pose proof (push_same f_empty start zero (finv_empty kcmp veq) ltac:(intros e []) H_zero) as Q. rewrite Ep in Q. destruct Q as (b' & ->). cbn [bind snd o_cost].
    destruct (grid_set_spec g1 start (Some zero) Wg) as (g & -> & Wg' & Rg' & Cg' & Gg'). { now rewrite Rg, Cg. }
    rewrite Rg, Cg in Gg'. cbn [bind o_explored]. cbn in Fv.
    assert (Ss : kept (OState g e1) start zero).
    { split; [cbn [o_cost]; rewrite Gg', cell_eqb_refl by auto; reflexivity|]. split; auto. exists []. split; reflexivity. }
    destruct (H_one zero H_zero) as (_ & V1). destruct (H_diag zero H_zero) as (_ & V2).
    destruct (loop_rinv fuel [] zero start fr (OState g e1)) as (st & E & L & cur & fr' & El & I & Ev).
    - split; cbn [o_cost o_explored]; auto; try exact (eq_trans Rg' Rg); try exact (eq_trans Cg' Cg).
      + constructor.
      + intros c [].
      + intros c Hc. exists false. split; [auto|]. split; [discriminate|easy].
      + intros c v J. rewrite Fv in J. destruct J as [J|[]]. injection J as <- <-. split; auto. split; [easy|]. exists zero. split; auto. split; auto. lra.
      + intros c [].
      + intros c Hc _ Nf. rewrite Gg' by auto. destruct (cell_eqb start c) eqn:Ec; auto. apply cell_eqb_eq in Ec as <-. exfalso. apply (Nf (Some zero)). rewrite Fv. now left.
      + intros c k [].
      + right. exists (Some zero). rewrite Fv. now left.
    - rewrite map_cells_length. cbn [length]. lia.
    - exists st. split; auto. destruct I. rewrite Ev in *.
      assert (Reach : forall l p c, In p E -> walk m n o p l c -> In c E /\ forall x y, kept st p x -> kept st c y -> (val y <= val (diagonals (length l) x))%R).
      { induction l as [|k l IH]; intros p c Hp Wl.
        - cbn in Wl. subst c. split; auto. intros x y Sx Sy. rewrite (kept_fun st p x y) by auto. cbn. lra.
        - destruct Wl as [S Wl]. destruct (r_step0 p k Hp S) as [[J|[w []]] B]. { intros [_ []]. }
          destruct (IH k c J Wl) as [Ic B2]. split; auto. intros x y Sx Sy. destruct (r_EX0 k J) as (z & Sz & _). specialize (B x z Sx Sz). specialize (B2 z y Sz Sy).
          cbn [length diagonals]. eapply Rle_trans; [exact B2|]. apply diagonals_mono; auto; [apply Sz|apply H_diag, Sx]. }
      assert (Is : In start E) by (destruct r_start0 as [J|[w []]]; auto).
      assert (WE : forall c, In c E <-> exists l, walk m n o start l c).
      { intros c. split; [intros J; destruct (r_EX0 c J) as (x & [_ (_ & l & Wl & _)] & _); eauto|]. intros (l & Wl). now apply (Reach l start c). }
      split; [|split].
      + intros c Hc. destruct (r_expl0 c Hc) as (b & Eb & Hb). exists b. split; auto. now rewrite Hb.
      + intros c Hc N. apply r_none0; auto. rewrite WE. intros (l & W). now apply (N l).
      + intros c l Hc W. destruct (Reach l start c Is W) as [J B]. destruct (r_EX0 c J) as (x & Sx & _). exists x. pose proof Sx as (E1 & E2 & E3). do 3 (split; [now auto|]). now apply B.
  Qed.
End Round.
