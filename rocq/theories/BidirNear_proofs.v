(** Bidirectional search without estimates and with rounded costs: the cost found is within a factor and one step of the cheapest one. *)
From Coq Require Import Reals Lra.
From Verif Require Import Base Frontier_model Frontier_spec Frontier_proofs AStar_model AStar_spec AStar_proofs
  AStar_opt_proofs Rounded_spec RoundedSearch_proofs Bidir_model Bidir_spec Bidir_proofs Bidir_opt_proofs.
From Coq Require Import ZifyBool ZifyNat.
Local Open Scope R_scope.

Section Near.
  Context {S A C Pf Pr : Type} (eqs : S -> S -> bool) (ltb : C -> C -> bool) (add : C -> C -> C) (zero : C) (val : C -> R) (fin : C -> Prop) (u big : R).
  Context (succf : Pf -> S -> list (S * A * C) * Pf) (succr : Pr -> S -> list (S * A * C) * Pr) (nbf nbr : S -> list (S * A * C)).
  Context (Heq : decides_eq eqs) (Hr : rounded ltb add zero val fin u big).
  Context (Hdf : deterministic succf nbf) (Hdr : deterministic succr nbr) (Hback : can_go_back_same_cost succf succr).
  Context (Hgrow : forall x y, leb ltb x (add x y)) (Hzero : forall x, leb ltb (add x zero) x) (Hcomm : forall x y, leb ltb (add x y) (add y x)).
  Context (init goal : S).
  Context (Hsf : forall l t, is_path succf init l t -> fin (path_cost add zero l) /\ 2 * val (path_cost add zero l) <= big).
  Context (Hsr : forall l t, is_path succr goal l t -> fin (path_cost add zero l) /\ 2 * val (path_cost add zero l) <= big).
  Let Hcost : cost_laws ltb add := r_laws _ _ _ _ _ _ _ Hr.
  Let Heqs : equivalence S eqs := decides_eq_equiv eqs Heq.
  Let Hlt : strict_weak_order C ltb := cost_laws_swo ltb add Hcost.
  Let h (_ : S) : C := zero.
  Notation le := (leb ltb).
  Notation cost := (path_cost add zero).
  Notation exact := (exact_cost val).
  Notation ng := (n_g zero).
  Notation nf := (n_f zero).

  Lemma tr a b c : le a b -> le b c -> le a c. Proof. apply (le_trans ltb add Hcost). Qed.

  Lemma u_pos : 0 <= u. Proof. apply (r_unit _ _ _ _ _ _ _ Hr). Qed.
  Lemma pow_mono m n : (m <= n)%nat -> (1 + u) ^ m <= (1 + u) ^ n.
  Proof. intros H. apply Rle_pow; auto. pose proof u_pos. lra. Qed.
  Lemma pow_one n : 1 <= (1 + u) ^ n.
  Proof. apply pow_R1_Rle. pose proof u_pos. lra. Qed.

  Lemma cost_val l n : fin (cost l) -> (@length (step S A C) l <= n)%nat -> val (cost l) <= (1 + u) ^ n * exact l /\ 0 <= exact l.
  Proof.
    intros F Hn. destruct (path_cost_exact ltb add zero val fin u big Hr l zero F) as (_ & Fl & _ & Up).
    rewrite (r_zero _ _ _ _ _ _ _ Hr), Rplus_0_l in Up. pose proof (exact_pos ltb add zero val fin u big Hr _ Fl) as P. split; auto.
    eapply Rle_trans; [exact Up|]. apply Rmult_le_compat_r; auto. now apply pow_mono.
  Qed.

  Lemma cost_snoc l e : cost (l ++ [e]) = add (cost l) (@step_cost S A C e).
  Proof. unfold path_cost. now rewrite fold_left_app. Qed.
  Lemma exact_apps l1 l2 : exact (l1 ++ l2) = exact l1 + @exact_cost S A C val l2.
  Proof. induction l1 as [|e l1 IH]; cbn; [lra|]. rewrite IH. lra. Qed.

  Lemma rev_steps : forall l s t, is_path succf s l t -> exists l', is_path succr t l' s /\ exact l' = exact l /\ length l' = length l.
  Proof.
    induction l as [|e l IH]; intros s t Hl; cbn [is_path] in Hl.
    - exists []. subst. cbn. auto.
    - destruct Hl as [Htr Hl]. apply Hback in Htr as (a' & Htr). destruct (IH _ _ Hl) as (l' & Hl' & He & Hn).
      exists (l' ++ [(a', step_cost e, s)]). split; [|split].
      + apply is_path_app. exists (step_state e). split; auto. cbn. auto.
      + rewrite exact_apps. cbn [exact_cost]. rewrite He. change (step_cost (a', step_cost e, s)) with (step_cost e). cbn [exact_cost]. lra.
      + rewrite app_length. cbn. lia.
  Qed.

  (** Two costs that are at most two path costs, added. *)
  Lemma join_val m a b x y : fin x -> fin y -> 2 * val x <= big -> 2 * val y <= big -> le a x -> le b y -> le m (add a b) ->
    fin m /\ val m <= (1 + u) * (val x + val y).
  Proof.
    intros Fx Fy Bx By Ha Hb Hm. destruct (r_le _ _ _ _ _ _ _ Hr _ _ Ha Fx) as [Fa Va]. destruct (r_le _ _ _ _ _ _ _ Hr _ _ Hb Fy) as [Fb Vb].
    assert (F : fin (add a b)) by (apply (r_add _ _ _ _ _ _ _ Hr); auto; lra).
    destruct (r_le _ _ _ _ _ _ _ Hr _ _ Hm F) as [Fm Vm]. split; auto. pose proof (r_up _ _ _ _ _ _ _ Hr _ _ F) as U. pose proof u_pos. nra.
  Qed.

  Section State.
    Context (ef er lf lr : list (node S A C)).
    Context (Kf : closed_ok ltb add zero h succf nbf init ef lf).
    Context (Kr : closed_ok ltb add zero h succr nbr goal er lr).

    Lemma exit_fwd : forall l p s, is_path succf init p s -> covers ef s -> is_path succf s l goal ->
      covers ef goal \/
      exists p1 e p2 z, l = p1 ++ e :: p2 /\ (forall x, In x (path_states s p1) -> covers ef x) /\
        In z lf /\ n_state z = step_state e /\ le (ng z) (cost (p ++ p1 ++ [e])) /\ is_path succf init (p ++ p1 ++ [e]) (step_state e).
    Proof.
      induction l as [|e l IH]; intros p s Hp Hs Hl; cbn [is_path] in Hl.
      - subst. auto.
      - destruct Hl as [Htr Hl]. destruct Hs as (m & Hm & Hms).
        assert (Hp' : is_path succf init (p ++ [e]) (step_state e)) by (apply is_path_app; exists s; cbn; auto).
        pose proof (trans_det succf nbf Hdf _ _ _ _ Htr) as Hin. rewrite <- Hms in Hin.
        destruct (k_next _ _ _ _ _ _ _ _ _ Kf m _ Hm Hin) as [Hc|(z & Hz & Hzs & Hzg)]; cbn [fst snd] in *.
        + destruct (IH (p ++ [e]) (step_state e)) as [H|(p1 & e1 & p2 & z & -> & Hall & Hz & Hzs & Hzg & Hpp)]; auto.
          right. exists (e :: p1), e1, p2, z. split; auto. split.
          * intros x [<-|Hx]; [exists m; auto|]. apply Hall. exact Hx.
          * repeat (split; [assumption|]). rewrite <- app_assoc in Hzg, Hpp. cbn [app] in *. auto.
        + right. exists [], e, l, z. split; auto. split.
          * intros x [<-|[]]. exists m. auto.
          * repeat (split; [assumption|]). cbn [app]. split; auto. rewrite cost_snoc. eapply tr; [exact Hzg|].
            apply (c_mono _ _ _ Hcost). apply (k_opt _ _ _ _ _ _ _ _ _ Kf); auto. now rewrite Hms.
    Qed.

    Lemma exit_rev : forall l s, is_path succf s l goal ->
      (forall x, In x (path_states s l) -> covers er x) \/
      exists q1 e q2 z s' k, l = q1 ++ e :: q2 /\ is_path succf s q1 s' /\
        (forall x, In x (path_states (step_state e) q2) -> covers er x) /\
        In z lr /\ n_state z = s' /\ le (ng z) (cost k) /\ is_path succr goal k s' /\ exact k = val (step_cost e) + exact q2 /\ length k = Datatypes.S (length q2).
    Proof.
      induction l as [|e l IH]; intros s Hl; cbn [is_path] in Hl.
      - subst. left. intros x [<-|[]]. apply (k_root _ _ _ _ _ _ _ _ _ Kr).
      - destruct Hl as [Htr Hl]. destruct (IH _ Hl) as [Hall|(q1 & e1 & q2 & z & s' & k & -> & Hq & H)].
        + destruct (Hall (step_state e)) as (m & Hm & Hms); [cbn; auto|].
          destruct (Hback _ _ _ _ Htr) as (a' & Hb). pose proof (trans_det succr nbr Hdr _ _ _ _ Hb) as Hin.
          rewrite <- Hms in Hin.
          destruct (k_next _ _ _ _ _ _ _ _ _ Kr m _ Hm Hin) as [Hc|(z & Hz & Hzs & Hzg)]; cbn [fst snd] in *.
          * left. intros x [<-|Hx]; auto.
          * right. destruct (rev_steps _ _ _ Hl) as (l' & Hl' & He & Hn).
            exists [], e, l, z, s, (l' ++ [(a', step_cost e, s)]). split; auto. split; [reflexivity|]. split; auto.
            repeat (split; [assumption|]). split; [|split; [|split]].
            -- rewrite cost_snoc. eapply tr; [exact Hzg|]. apply (c_mono _ _ _ Hcost). apply (k_opt _ _ _ _ _ _ _ _ _ Kr); auto. now rewrite Hms.
            -- apply is_path_app. exists (step_state e). split; auto. cbn. auto.
            -- rewrite exact_apps, He. cbn [exact_cost]. change (step_cost (a', step_cost e, s)) with (step_cost e). lra.
            -- rewrite app_length. cbn. lia.
        + right. exists (e :: q1), e1, q2, z, s', k. split; auto. split; auto. cbn. auto.
    Qed.

    Context (mu : C).
    Context (Hmu : forall m m', In m ef -> In m' er -> n_state m = n_state m' ->
      exists k k', In k ef /\ In k' er /\ n_state k = n_state m /\ n_state k' = n_state m /\ le mu (add (ng k) (ng k'))).

    Definition bounded (n : nat) (x : R) : Prop := fin mu /\ val mu <= (1 + u) ^ Datatypes.S n * x.

    Lemma two_paths n lf' lr' s t a b : is_path succf init lf' s -> is_path succr goal lr' t -> (length lf' <= n)%nat -> (length lr' <= n)%nat ->
      le a (cost lf') -> le b (cost lr') -> le mu (add a b) -> bounded n (exact lf' + exact lr').
    Proof.
      intros H1 H2 N1 N2 Ha Hb Hm. destruct (Hsf _ _ H1) as [F1 B1]. destruct (Hsr _ _ H2) as [F2 B2].
      destruct (join_val mu a b _ _ F1 F2 B1 B2 Ha Hb Hm) as [Fm Vm]. split; auto.
      destruct (cost_val _ n F1 N1) as [V1 _]. destruct (cost_val _ n F2 N2) as [V2 _].
      eapply Rle_trans; [exact Vm|]. cbn [pow]. rewrite Rmult_assoc. pose proof u_pos. apply Rmult_le_compat_l; lra.
    Qed.

    Lemma bounded_less n x y : x <= y -> bounded n x -> bounded n y.
    Proof.
      intros H [F V]. split; auto. eapply Rle_trans; [exact V|]. apply Rmult_le_compat_l; auto. pose proof (pow_one (Datatypes.S n)). lra.
    Qed.

    Lemma meet_le l1 l2 s : is_path succf init l1 s -> is_path succf s l2 goal -> covers ef s -> covers er s ->
      bounded (length (l1 ++ l2)) (exact (l1 ++ l2)).
    Proof.
      intros H1 H2 (m & Hm & Hms) (m' & Hm' & Hms').
      destruct (Hmu m m' Hm Hm' ltac:(congruence)) as (k & k' & Hk & Hk' & Hks & Hks' & Hle).
      destruct (rev_steps _ _ _ H2) as (l' & Hl' & He & Hn). rewrite exact_apps, <- He.
      apply (two_paths _ l1 l' s s (ng k) (ng k')); auto; try (rewrite app_length; lia).
      - apply (k_opt _ _ _ _ _ _ _ _ _ Kf); auto; congruence.
      - apply (k_opt _ _ _ _ _ _ _ _ _ Kr); auto. rewrite Hks', Hms. exact Hl'.
    Qed.

    Lemma closed_near_bound : (lf = [] \/ lr = [] -> forall l, is_path succf init l goal -> bounded (length l) (exact l)).
    Proof.
      intros Hemp l Hl.
      destruct (exit_fwd l [] init) as [Hg|(p1 & e & p2 & z & -> & _ & Hz & _)]; auto.
      - reflexivity.
      - apply (k_root _ _ _ _ _ _ _ _ _ Kf).
      - replace l with (l ++ []) by apply app_nil_r.
        apply (meet_le l [] goal); auto; [reflexivity|]. apply (k_root _ _ _ _ _ _ _ _ _ Kr).
      - destruct Hemp as [->|Hemp]; [easy|].
        destruct (exit_rev _ _ Hl) as [Hall|(_ & _ & _ & z' & _ & _ & _ & _ & _ & Hz' & _)].
        + apply (meet_le [] (p1 ++ e :: p2) init); auto; [reflexivity|apply (k_root _ _ _ _ _ _ _ _ _ Kf)|].
          apply Hall. cbn. auto.
        + rewrite Hemp in Hz'. easy.
    Qed.

    Lemma key_least (l : list (node S A C)) t z : Forall (total_ok add zero h) l -> In t l -> In z l -> le (nf t) (nf z) -> le (ng t) (ng z).
    Proof.
      intros T Ht Hz H. rewrite Forall_forall in T. pose proof (T _ Ht) as Et. pose proof (T _ Hz) as Ez. unfold total_ok, h in Et, Ez. rewrite Et, Ez in H.
      eapply tr; [apply Hgrow|]. eapply tr; [exact H|]. apply Hzero.
    Qed.

    Lemma open_near_bound ft rt offset : In ft lf -> In rt lr ->
      (forall y, In y lf -> le (nf ft) (nf y)) -> (forall y, In y lr -> le (nf rt) (nf y)) ->
      le (add mu offset) (add (ng ft) (ng rt)) ->
      forall l, is_path succf init l goal ->
        bounded (length l) (exact l) \/ exists e, In e l /\ bounded (length l) (exact l + val (step_cost e)).
    Proof.
      intros Hft Hrt Hmf Hmr Hstop l Hl.
      pose proof (k_total _ _ _ _ _ _ _ _ _ Kf) as Tf. pose proof (k_total _ _ _ _ _ _ _ _ _ Kr) as Tr.
      destruct (exit_fwd l [] init) as [Hg|(p1 & e & p2 & z & El & Hall & Hz & Hzs & Hzg & Hzp)]; auto.
      { reflexivity. }
      { apply (k_root _ _ _ _ _ _ _ _ _ Kf). }
      { left. replace l with (l ++ []) by apply app_nil_r.
        apply (meet_le l [] goal); auto; [reflexivity|]. apply (k_root _ _ _ _ _ _ _ _ _ Kr). }
      destruct (exit_rev _ _ Hl) as [Hall'|(q1 & e' & q2 & z' & s' & k' & El' & Hq1 & Hall' & Hz' & Hzs' & Hzg' & Hk' & Ek' & Nk')].
      { left. apply (meet_le [] l init); auto; [reflexivity|apply (k_root _ _ _ _ _ _ _ _ _ Kf)|].
        apply Hall'. cbn. auto. }
      cbn [app] in Hzg, Hzp.
      assert (Nl : (length (p1 ++ [e]) <= length l)%nat) by (rewrite El, !app_length; cbn; lia).
      assert (Nr : (length k' <= length l)%nat) by (rewrite El', app_length; cbn; lia).
      assert (Hm : le mu (add (ng ft) (ng rt))) by (eapply tr; [apply Hgrow|exact Hstop]).
      assert (B : bounded (length l) (exact (p1 ++ [e]) + exact k')).
      { apply (two_paths _ _ _ _ _ (ng ft) (ng rt) Hzp Hk'); auto.
        - eapply tr; [apply (key_least lf); eauto|exact Hzg].
        - eapply tr; [apply (key_least lr); eauto|exact Hzg']. }
      rewrite exact_apps, Ek' in B. cbn [exact_cost] in B.
      assert (Pos : forall x, In x l -> 0 <= val (step_cost x)).
      { intros x Hx. destruct (Hsf _ _ Hl) as [F _]. destruct (path_cost_exact ltb add zero val fin u big Hr l zero F) as (_ & Fl & _).
        unfold finite_steps in Fl. rewrite Forall_forall in Fl. apply (r_pos _ _ _ _ _ _ _ Hr). auto. }
      rewrite El in El'. apply split3 in El' as [(-> & -> & ->)|[(k & -> & ->)|(k & -> & ->)]].
      - right. exists e'. split; [rewrite El; apply in_or_app; right; now left|].
        rewrite El at 2. rewrite exact_apps. cbn [exact_cost]. eapply bounded_less; [|exact B]. lra.
      - left. rewrite El at 2. rewrite exact_apps. cbn [exact_cost]. rewrite exact_apps. cbn [exact_cost]. eapply bounded_less; [|exact B].
        assert (0 <= exact k).
        { assert (F : forall k0 : list (step S A C), (forall x, In x k0 -> 0 <= val (step_cost x)) -> 0 <= exact k0).
          { induction k0 as [|x k0 IH]; intros H; cbn; [lra|]. pose proof (H x (or_introl eq_refl)). assert (0 <= exact k0) by (apply IH; intros y Hy; apply H; now right). lra. }
          apply F. intros x Hx. apply Pos. rewrite El. apply in_or_app. right. right. apply in_or_app. now left. }
        lra.
      - left. rewrite El in Hl |- *.
        replace ((q1 ++ e' :: k) ++ e :: p2) with ((q1 ++ [e']) ++ (k ++ e :: p2)) in *
          by (rewrite <- !app_assoc; reflexivity).
        pose proof Hl as Hl0. apply is_path_app in Hl0 as (v & H1 & H2).
        assert (v = step_state e').
        { apply is_path_app in H1 as (w & _ & H1). cbn [is_path] in H1. destruct H1; congruence. }
        subst v. apply (meet_le _ _ (step_state e')); auto.
        + apply Hall. cbn. right. rewrite map_app. apply in_or_app. right. cbn. auto.
        + apply Hall'. cbn. auto.
    Qed.
  End State.

  Lemma no_estimate_consistent {P} (succ : P -> S -> list (S * A * C) * P) i : consistent_from succ ltb add h i.
  Proof. intros g s a c t _ _. apply (c_mono _ _ _ Hcost). apply Hgrow. Qed.
  Lemma no_estimate_cancellable : cancellable ltb add h.
  Proof. intros g1 g2 s H. eapply tr; [apply Hgrow|]. eapply tr; [exact H|]. apply Hzero. Qed.

  Lemma bi_near fuel pf pr b :
    bi_search eqs ltb add zero h h succf succr true fuel init goal pf pr = Ok (true, b) ->
    exists mu, bi_cost add zero (b_sol b) = Some mu /\
      forall l, is_path succf init l goal ->
        bounded mu (length l) (exact l) \/ exists e, In e l /\ bounded mu (length l) (exact l + val (step_cost e)).
  Proof.
    intros H.
    destruct (bi_search_loop eqs ltb add zero h h succf succr true Heqs Hlt init goal fuel pf pr)
      as (frf & frr & Hb & Hf & Hvf & Hr' & Hvr). rewrite Hb in H.
    apply (bi_loop_ind eqs ltb add zero h h succf succr true Heqs Hlt
      (fun b => J_meet ltb add zero init goal b /\ J_sound eqs ltb add zero h h succf succr init goal b /\
        inv_opt eqs ltb add zero h succf nbf init (b_f b) /\
        inv_opt eqs ltb add zero h succr nbr goal (b_r b))) in H.
    - destruct H as [((_ & _ & _ & Hm) & (_ & _ & Hp) & [_ Hof] & [_ Hor]) (Hqf & Hqr & Hs & Hend)].
      destruct Hof as [(_ & _ & Hq)|[_ Kf]]; [congruence|]. destruct Hor as [(_ & _ & Hq)|[_ Kr]]; [congruence|].
      specialize (Hm Hqf). unfold pair_ok in Hp. destruct (b_sol b) as [[x y]|]; [|congruence].
      destruct Hp as (_ & _ & _ & Hbest). exists (add (ng x) (ng y)). split; [reflexivity|].
      assert (Hc : forall c, b_best b = Some c -> le (add (ng x) (ng y)) c).
      { intros c Ec. destruct Hbest as [E|E]; rewrite E in Ec; injection Ec as <-; [|apply Hcomm]. apply (le_refl ltb add Hcost). }
      assert (Hmu : forall m m', In m (st_expl (b_f b)) -> In m' (st_expl (b_r b)) -> n_state m = n_state m' ->
        exists k k', In k (st_expl (b_f b)) /\ In k' (st_expl (b_r b)) /\ n_state k = n_state m /\
          n_state k' = n_state m /\ le (add (ng x) (ng y)) (add (ng k) (ng k'))).
      { intros m m' H1 H2 H3. destruct (Hm m m' H1 H2 H3) as (k & k' & c & Hk & Hk' & Hks & Hks' & Ec & Hle).
        exists k, k'. repeat (split; [assumption|]). eapply tr; [apply (Hc c Ec)|]. destruct Hle as [Hle|Hle]; auto. eapply tr; [exact Hle|apply Hcomm]. }
      intros l Hl.
      destruct Hend as [He|(ft & rt & best & E & Hft & Hrt & Hmf & Hmr & Hle)].
      + left. eapply closed_near_bound; eauto. unfold either_empty in He. apply orb_true_iff in He as [He|He];
          apply is_empty_vec in He; auto.
      + eapply (open_near_bound _ _ _ _ Kf Kr _ Hmu ft rt); eauto.
        eapply tr; [|exact Hle]. apply (c_mono _ _ _ Hcost). now apply Hc.
    - intros b0 (_ & Hs & _). eapply J_sound_finv; eauto.
    - intros f r best sol n f' (Hm & Hs & H1 & H2) Hst. cbn [b_f b_r] in *.
      split; [eapply J_meet_fwd; eauto|]. split; [eapply J_sound_fwd; eauto|].
      split; [|auto]. eapply sstep_opt; eauto using no_estimate_consistent, no_estimate_cancellable.
    - intros f r best sol n r' (Hm & Hs & H1 & H2) Hq Hst. cbn [b_f b_r] in *.
      split; [eapply J_meet_rev; eauto|]. split; [eapply J_sound_rev; eauto|].
      split; [auto|]. eapply sstep_opt; eauto using no_estimate_consistent, no_estimate_cancellable.
    - split; [now apply J_meet_init|]. split; [now apply J_sound_init|]. cbn.
      split; now apply inv_opt_init.
    - cbn. congruence.
  Qed.
End Near.
