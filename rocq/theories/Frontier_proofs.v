(** Proofs about the Frontier model: refinement to the list specification. *)
From Verif Require Import Base Frontier_model Frontier_spec.
From Coq Require Import ZifyBool ZifyNat Permutation.

Section Proofs.
  Context {T : Type} (cmp eqk : T -> T -> bool).
  Context (Hswo : strict_weak_order T cmp) (Heq : equivalence T eqk).

  Lemma vget_Ok {A} (v : list A) i : i < length v -> exists a, vget v i = Ok a /\ nth_error v i = Some a.
  Proof.
    intros Hi. unfold vget. destruct (nth_error v i) eqn:E; eauto.
    apply nth_error_None in E. lia.
  Qed.

  (** ** General facts on ordered pairs *)
  Lemma FOP_app {A} (R : A -> A -> Prop) l1 l2 :
    ForallOrdPairs R (l1 ++ l2) <->
    ForallOrdPairs R l1 /\ ForallOrdPairs R l2 /\ (forall a b, In a l1 -> In b l2 -> R a b).
  Proof.
    induction l1 as [|x l1 IH]; cbn [app].
    - split; [intros H; repeat split; auto; [constructor | easy] | tauto].
    - split.
      + intros H. inversion H as [|a l Hf Hp]; subst. apply IH in Hp as (H1 & H2 & H3).
        rewrite Forall_app in Hf. destruct Hf as [Hf1 Hf2]. repeat split; auto.
        * constructor; auto.
        * intros a b [->|Ha] Hb; auto. eapply Forall_forall in Hf2; eauto.
      + intros (H1 & H2 & H3). inversion H1; subst. constructor.
        * apply Forall_app. split; auto. apply Forall_forall. intros b Hb. apply H3; [now left|auto].
        * apply IH. repeat split; auto. intros a b Ha Hb. apply H3; [now right|auto].
  Qed.

  Lemma FOP_nth {A} (R : A -> A -> Prop) l i j a b :
    ForallOrdPairs R l -> i < j -> nth_error l i = Some a -> nth_error l j = Some b -> R a b.
  Proof.
    intros H. revert i j. induction H as [|x l Hf Hp IH]; intros i j Hij Ha Hb.
    - destruct i; discriminate.
    - destruct j as [|j]; [lia|]. destruct i as [|i]; cbn in Ha, Hb.
      + injection Ha as ->. apply nth_error_In in Hb. eapply Forall_forall in Hf; eauto.
      + apply (IH i j); auto; lia.
  Qed.

  Lemma FOP_filter {A} (R : A -> A -> Prop) p l : ForallOrdPairs R l -> ForallOrdPairs R (filter p l).
  Proof.
    induction 1 as [|x l Hf Hp IH]; cbn [filter]; [constructor|].
    destruct (p x); auto. constructor; auto. rewrite Forall_forall in *.
    intros y Hy. apply filter_In in Hy. apply Hf, Hy.
  Qed.

  (** ** The binary searches *)
  Definition below (v : list T) (x : T) k := forall i a, nth_error v i = Some a -> i < k -> cmp x a = false.
  Definition above (v : list T) (x : T) k := forall i a, nth_error v i = Some a -> k <= i -> cmp x a = true.

  Lemma cmp_mono v x i j a b :
    ordered cmp v -> i <= j -> nth_error v i = Some a -> nth_error v j = Some b ->
    cmp x a = true -> cmp x b = true.
  Proof.
    intros Ho Hij Ha Hb Hxa. destruct (Nat.eq_dec i j) as [->|Hne]; [congruence|].
    destruct (cmp x b) eqn:E; auto. exfalso.
    assert (Hba : cmp b a = false) by (apply (FOP_nth (fun a b => cmp b a = false) v i j); auto; lia).
    pose proof (swo_incomp _ _ Hswo _ _ _ E Hba). congruence.
  Qed.

  Lemma cmp_anti v x i j a b :
    ordered cmp v -> i <= j -> nth_error v i = Some a -> nth_error v j = Some b ->
    cmp b x = true -> cmp a x = true.
  Proof.
    intros Ho Hij Ha Hb Hbx. destruct (Nat.eq_dec i j) as [->|Hne]; [congruence|].
    destruct (cmp a x) eqn:E; auto. exfalso.
    assert (Hba : cmp b a = false) by (apply (FOP_nth (fun a b => cmp b a = false) v i j); auto; lia).
    pose proof (swo_incomp _ _ Hswo _ _ _ Hba E). congruence.
  Qed.

  Lemma ffirst_spec v x : ordered cmp v -> forall fuel b e mid,
    e - b < fuel -> b <= e <= length v -> (b = e -> mid = b) ->
    below v x b -> above v x e ->
    exists k, ffirst cmp fuel v x b e mid = Ok k /\ k <= length v /\ below v x k /\ above v x k.
  Proof.
    intros Ho. induction fuel as [|fuel IH]; intros b e mid Hf Hbe Hmid Hbl Hab; [lia|].
    cbn [ffirst]. destruct (Nat.eqb_spec b e) as [->|Hne].
    { exists mid. rewrite Hmid by auto. repeat split; auto; lia. }
    set (m := b + (e - b) / 2).
    assert (Hm : b <= m < e) by (unfold m; lia).
    destruct (vget_Ok v m) as (a & Hva & Hna); [lia|]. rewrite Hva. cbn [bind].
    destruct (cmp x a) eqn:Exa.
    - apply IH; auto; try lia.
      intros i c Hc Hi. eapply (cmp_mono v x m i); eauto.
    - assert (Hbl' : below v x (S m)).
      { intros i c Hc Hi. destruct (cmp x c) eqn:E; auto.
        rewrite <- Exa. symmetry. eapply (cmp_mono v x i m); eauto; lia. }
      destruct (Nat.eqb_spec (S m) (length v)) as [Hl|Hl]; cbn [bind].
      + exists (S m). repeat split; auto; [lia|]. intros i c Hc Hi.
        assert (i < length v) by (apply nth_error_Some; congruence). lia.
      + destruct (vget_Ok v (S m)) as (c & Hvc & Hnc); [lia|]. rewrite Hvc. cbn [bind].
        destruct (cmp x c) eqn:Exc; cbn [negb].
        * exists (S m). repeat split; auto; [lia|]. intros i d Hd Hi. eapply (cmp_mono v x (S m) i); eauto.
        * assert (S m <> e).
          { intros He. enough (cmp x c = true) by congruence. eapply Hab; [exact Hnc|lia]. }
          apply IH; auto; try lia.
  Qed.

  Lemma flast_spec v x : ordered cmp v -> forall fuel b e mid,
    e - b < fuel -> b <= e <= length v -> (b = e -> mid = b) ->
    (forall i a, nth_error v i = Some a -> i < b -> cmp a x = true) ->
    (forall i a, nth_error v i = Some a -> e <= i -> cmp a x = false) ->
    exists k, flast cmp fuel v x b e mid = Ok k /\ k <= length v /\
      (forall i a, nth_error v i = Some a -> i < k -> cmp a x = true).
  Proof.
    intros Ho. induction fuel as [|fuel IH]; intros b e mid Hf Hbe Hmid Hbl Hab; [lia|].
    cbn [flast]. destruct (Nat.eqb_spec b e) as [->|Hne].
    { exists mid. rewrite Hmid by auto. repeat split; auto; lia. }
    set (m := b + (e - b) / 2).
    assert (Hm : b <= m < e) by (unfold m; lia).
    destruct (vget_Ok v m) as (a & Hva & Hna); [lia|]. rewrite Hva. cbn [bind].
    destruct (cmp a x) eqn:Eax; cbn [negb].
    - assert (Hbl' : forall i c, nth_error v i = Some c -> i <= m -> cmp c x = true).
      { intros i c Hc Hi. eapply (cmp_anti v x i m); eauto. }
      destruct (Nat.eqb_spec (S m) (length v)) as [Hl|Hl]; cbn [bind].
      + exists m. repeat split; auto; try lia. intros i c Hc Hi. apply (Hbl' i); auto; lia.
      + destruct (vget_Ok v (S m)) as (c & Hvc & Hnc); [lia|]. rewrite Hvc. cbn [bind].
        destruct (cmp c x) eqn:Ecx.
        * assert (S m <> e).
          { intros He. enough (cmp c x = false) by congruence. eapply Hab; [exact Hnc|lia]. }
          apply IH; auto; try lia. intros i d Hd Hi. apply (Hbl' i); auto; lia.
        * exists m. repeat split; auto; try lia. intros i d Hd Hi. apply (Hbl' i); auto; lia.
    - apply IH; auto; try lia. intros i c Hc Hi. destruct (cmp c x) eqn:E; auto.
      rewrite <- Eax. symmetry. eapply (cmp_anti v x m i); eauto.
  Qed.

  (** ** Insertion *)
  Lemma s_insert_split v x k : k <= length v -> below v x k -> above v x k ->
    s_insert cmp x v = firstn k v ++ x :: skipn k v.
  Proof.
    revert k. induction v as [|y v IH]; intros k Hk Hb Ha.
    - destruct k; reflexivity.
    - cbn [s_insert]. destruct k as [|k]; cbn [firstn skipn app].
      + rewrite (Ha 0 y); auto.
      + rewrite (Hb 0 y); auto; [|lia]. f_equal. apply IH.
        * cbn in Hk. lia.
        * intros i a Hi Hik. apply (Hb (S i)); auto; lia.
        * intros i a Hi Hik. apply (Ha (S i)); auto; lia.
  Qed.

  Lemma s_insert_perm x l : Permutation (s_insert cmp x l) (x :: l).
  Proof.
    induction l as [|y l IH]; cbn [s_insert]; auto. destruct (cmp x y); auto.
    rewrite IH. apply perm_swap.
  Qed.

  Lemma cmp_asym x y : cmp x y = true -> cmp y x = false.
  Proof.
    intros H. destruct (cmp y x) eqn:E; auto.
    pose proof (swo_trans _ _ Hswo _ _ _ H E). rewrite (swo_irrefl _ _ Hswo) in *. discriminate.
  Qed.

  Lemma s_insert_ordered x l : ordered cmp l -> ordered cmp (s_insert cmp x l).
  Proof.
    unfold ordered. induction 1 as [|y l Hf Hp IH]; cbn [s_insert].
    - constructor; [constructor|constructor].
    - destruct (cmp x y) eqn:E.
      + constructor; [|constructor; auto]. apply Forall_cons; [apply cmp_asym; auto|].
        rewrite Forall_forall in *. intros z Hz. specialize (Hf z Hz). cbn in Hf.
        destruct (cmp z x) eqn:E2; auto.
        rewrite <- Hf. symmetry. apply (swo_trans _ _ Hswo _ _ _ E2 E).
      + constructor; auto. rewrite Forall_forall in *. intros z Hz.
        apply (Permutation_in _ (s_insert_perm x l)) in Hz. destruct Hz as [->|Hz]; auto.
  Qed.

  Lemma eqk_false_sym x y : eqk x y = false -> eqk y x = false.
  Proof.
    intros H. destruct (eqk y x) eqn:E; auto. apply (eqk_sym _ _ Heq) in E. congruence.
  Qed.

  Lemma distinct_perm l l' : Permutation l l' -> distinct eqk l -> distinct eqk l'.
  Proof.
    unfold distinct. induction 1 as [|x l l' H IH|x y l|l l' l'' H1 IH1 H2 IH2]; intros Hd; auto.
    - inversion Hd as [|? ? Hf Hp]; subst. constructor; auto.
      rewrite Forall_forall in *. intros z Hz. apply Hf. eapply Permutation_in; [symmetry|]; eauto.
    - inversion Hd as [|? ? Hf Hp]; subst. inversion Hp as [|? ? Hf' Hp']; subst.
      inversion Hf; subst. constructor; [|constructor; auto].
      constructor; auto. apply eqk_false_sym; auto.
  Qed.

  Lemma find_none_distinct x l : find (eqk x) l = None -> Forall (fun b => eqk x b = false) l.
  Proof.
    intros H. apply Forall_forall. intros y Hy. exact (find_none _ _ H y Hy).
  Qed.

  Lemma find_In_eq x y l : distinct eqk l -> In y l -> eqk x y = true -> find (eqk x) l = Some y.
  Proof.
    unfold distinct. induction 1 as [|z l Hf Hp IH]; intros Hin Hxy; [easy|]. cbn [find].
    destruct Hin as [->|Hin].
    - now rewrite Hxy.
    - destruct (eqk x z) eqn:E; auto. exfalso.
      eapply Forall_forall in Hf; eauto. cbn in Hf.
      enough (eqk z y = true) by congruence.
      eapply (eqk_trans _ _ Heq); [apply (eqk_sym _ _ Heq)|]; eauto.
  Qed.

  Lemma find_perm x l l' : Permutation l l' -> distinct eqk l -> find (eqk x) l = find (eqk x) l'.
  Proof.
    intros Hp Hd. destruct (find (eqk x) l) as [y|] eqn:E.
    - apply find_some in E as [Hin Hxy]. symmetry. apply find_In_eq; auto.
      + eapply distinct_perm; eauto.
      + eapply Permutation_in; eauto.
    - symmetry. destruct (find (eqk x) l') as [y|] eqn:E'; auto.
      apply find_some in E' as [Hin Hxy]. exfalso.
      pose proof (find_none _ _ E y (Permutation_in y (Permutation_sym Hp) Hin)). congruence.
  Qed.

  (** ** Removal *)
  Lemma s_without_notin x l : Forall (fun b => eqk x b = false) l -> s_without eqk x l = l.
  Proof.
    unfold s_without. induction 1 as [|y l Hy Hl IH]; cbn [filter]; auto. rewrite Hy. cbn. now f_equal.
  Qed.

  Lemma s_without_app x l1 l2 : s_without eqk x (l1 ++ l2) = s_without eqk x l1 ++ s_without eqk x l2.
  Proof. apply filter_app. Qed.

  Lemma s_without_eq x y l : eqk x y = true -> s_without eqk x l = s_without eqk y l.
  Proof.
    intros Hxy. unfold s_without. apply filter_ext. intros z. f_equal.
    destruct (eqk x z) eqn:E1, (eqk y z) eqn:E2; auto; exfalso.
    - enough (eqk y z = true) by congruence.
      eapply (eqk_trans _ _ Heq); [apply (eqk_sym _ _ Heq)|]; eauto.
    - enough (eqk x z = true) by congruence. eapply (eqk_trans _ _ Heq); eauto.
  Qed.

  Lemma scan_erase_spec y rest : forall pre, distinct eqk (pre ++ rest) ->
    In y rest ->
    scan_erase eqk y rest (length pre) (pre ++ rest) = Ok (pre ++ s_without eqk y rest, true).
  Proof.
    induction rest as [|z rest IH]; intros pre Hd Hin; [easy|]. cbn [scan_erase].
    apply FOP_app in Hd as Hd'. destruct Hd' as (_ & Hr & Hpr).
    inversion Hr as [|? ? Hf Hp]; subst.
    destruct (eqk z y) eqn:E.
    - unfold verase. rewrite app_length. cbn [length].
      replace (length pre <? length pre + S (length rest)) with true by lia. cbn [bind].
      f_equal. f_equal.
      rewrite firstn_app, Nat.sub_diag, firstn_all. cbn [firstn]. rewrite app_nil_r. f_equal.
      rewrite skipn_app. rewrite (skipn_all2 pre) by lia.
      replace (S (length pre) - length pre) with 1 by lia. cbn [app skipn].
      unfold s_without. cbn [filter].
      assert (Eyz : eqk y z = true) by (apply (eqk_sym _ _ Heq); auto). rewrite Eyz. cbn [negb].
      change (rest = s_without eqk y rest).
      symmetry. rewrite (s_without_eq y z) by auto. apply s_without_notin. exact Hf.
    - destruct Hin as [->|Hin].
      { rewrite (eqk_refl _ _ Heq) in E. discriminate. }
      specialize (IH (pre ++ [z])). rewrite app_length in IH. cbn [length] in IH.
      rewrite <- !app_assoc in IH. cbn [app] in IH. replace (length pre + 1) with (S (length pre)) in IH by lia.
      rewrite IH; auto.
      f_equal. f_equal. f_equal. unfold s_without at 2. cbn [filter].
      rewrite (eqk_false_sym z y) by auto. reflexivity.
  Qed.

  (** ** The invariant and the refinement of each operation *)
  Definition finv (f : frontier T) : Prop :=
    ordered cmp (vec f) /\ distinct eqk (vec f) /\ Permutation (vec f) (set f).

  Lemma finv_empty : finv f_empty.
  Proof. repeat split; constructor. Qed.

  Lemma set_find_vec f x : finv f -> set_find eqk x (set f) = find (eqk x) (vec f).
  Proof. intros (Ho & Hd & Hp). symmetry. apply find_perm; auto. Qed.

  Lemma s_insert_distinct x l :
    distinct eqk l -> find (eqk x) l = None -> distinct eqk (s_insert cmp x l).
  Proof.
    intros Hd Hn. eapply distinct_perm; [symmetry; apply s_insert_perm|].
    constructor; auto. apply find_none_distinct; auto.
  Qed.

  Lemma f_push_spec x f : finv f ->
    match find (eqk x) (vec f) with
    | Some y => f_push cmp eqk x f = Ok ((y, false), f)
    | None => exists f', f_push cmp eqk x f = Ok ((x, true), f') /\ finv f' /\ vec f' = s_insert cmp x (vec f)
    end.
  Proof.
    intros Hi. unfold f_push. rewrite set_find_vec by auto.
    destruct (find (eqk x) (vec f)) as [y|] eqn:E; auto.
    destruct Hi as (Ho & Hd & Hp).
    destruct (ffirst_spec (vec f) x Ho (S (length (vec f))) 0 (length (vec f)) 0)
      as (k & Hk & Hkl & Hb & Ha); try lia.
    { intros i a _ Hi. lia. }
    { intros i a Hn Hi. assert (i < length (vec f)) by (apply nth_error_Some; congruence). lia. }
    rewrite Hk. cbn [bind]. unfold vinsert. replace (k <=? length (vec f)) with true by lia. cbn [bind].
    rewrite <- s_insert_split by auto.
    eexists. split; [reflexivity|]. cbn [vec set]. split; [|reflexivity].
    repeat split; cbn [vec set].
    - apply s_insert_ordered; auto.
    - apply s_insert_distinct; auto.
    - rewrite s_insert_perm. now constructor.
  Qed.

  Lemma perm_filter {A} (p : A -> bool) l l' : Permutation l l' -> Permutation (filter p l) (filter p l').
  Proof.
    induction 1; cbn [filter]; auto.
    - destruct (p x); auto.
    - destruct (p x), (p y); auto. constructor.
    - etransitivity; eauto.
  Qed.

  Lemma f_remove_spec x f : finv f ->
    match find (eqk x) (vec f) with
    | None => f_remove cmp eqk x f = Ok (0, f)
    | Some y => exists f', f_remove cmp eqk x f = Ok (1, f') /\ finv f' /\ vec f' = s_without eqk x (vec f)
    end.
  Proof.
    intros Hi. unfold f_remove. rewrite set_find_vec by auto.
    destruct (find (eqk x) (vec f)) as [y|] eqn:E; auto.
    destruct Hi as (Ho & Hd & Hp).
    apply find_some in E as [Hin Hxy].
    destruct (flast_spec (vec f) y Ho (S (length (vec f))) 0 (length (vec f)) 0)
      as (k & Hk & Hkl & Hb); try lia.
    { intros i a Hn Hi. assert (i < length (vec f)) by (apply nth_error_Some; congruence). lia. }
    rewrite Hk. cbn [bind].
    assert (Hsplit : vec f = firstn k (vec f) ++ skipn k (vec f)) by (symmetry; apply firstn_skipn).
    assert (Hnot : ~ In y (firstn k (vec f))).
    { intros Hy. apply In_nth_error in Hy as [i Hi].
      assert (Hik : i < k).
      { assert (i < length (firstn k (vec f))) by (apply nth_error_Some; congruence).
        rewrite firstn_length in *. lia. }
      assert (Hi' : nth_error (vec f) i = Some y).
      { rewrite Hsplit, nth_error_app1; auto. rewrite firstn_length. lia. }
      specialize (Hb i y Hi' Hik). rewrite (swo_irrefl _ _ Hswo) in Hb. discriminate. }
    assert (Hin' : In y (skipn k (vec f))).
    { rewrite Hsplit in Hin. apply in_app_or in Hin as [?|?]; tauto. }
    assert (Hlen : length (firstn k (vec f)) = k) by (rewrite firstn_length; lia).
    pose proof (scan_erase_spec y (skipn k (vec f)) (firstn k (vec f))) as Hs.
    rewrite <- Hsplit, Hlen in Hs. rewrite Hs by auto. cbn [bind].
    assert (Hw : s_without eqk x (vec f) = firstn k (vec f) ++ s_without eqk y (skipn k (vec f))).
    { rewrite (s_without_eq x y) by auto. rewrite Hsplit at 1. rewrite s_without_app. f_equal.
      apply s_without_notin. apply Forall_forall. intros z Hz.
      rewrite Hsplit in Hd. apply FOP_app in Hd as (_ & _ & Hc). apply eqk_false_sym. auto. }
    rewrite <- Hw.
    eexists. split; [reflexivity|]. cbn [vec set]. split; [|reflexivity].
    repeat split; cbn [vec set].
    - apply FOP_filter; auto.
    - apply FOP_filter; auto.
    - rewrite (s_without_eq x y) by auto. apply perm_filter; auto.
  Qed.

  Lemma f_pop_spec f : finv f ->
    match rev (vec f) with
    | [] => f_pop eqk f = UB
    | x :: r => exists f', f_pop eqk f = Ok (x, f') /\ finv f' /\ vec f' = rev r
    end.
  Proof.
    intros (Ho & Hd & Hp). unfold f_pop, f_top.
    destruct (rev (vec f)) as [|x r] eqn:E; [reflexivity|]. cbn [bind].
    assert (Hv : vec f = rev r ++ [x]).
    { rewrite <- (rev_involutive (vec f)), E. reflexivity. }
    eexists. split; [reflexivity|]. cbn [vec set].
    assert (Hrl : removelast (vec f) = rev r) by (rewrite Hv; apply removelast_last).
    split; [|exact Hrl]. rewrite Hrl. rewrite Hv in Ho, Hd.
    apply FOP_app in Ho as (Ho1 & _ & _). apply FOP_app in Hd as (Hd1 & _ & Hd2).
    repeat split; cbn [vec set]; auto.
    unfold set_erase. rewrite <- (perm_filter _ _ _ Hp). rewrite Hv, filter_app. cbn [filter].
    rewrite (eqk_refl _ _ Heq). cbn [negb]. rewrite app_nil_r.
    change (filter (fun y => negb (eqk x y)) (rev r)) with (s_without eqk x (rev r)).
    rewrite s_without_notin; auto. apply Forall_forall. intros y Hy. apply eqk_false_sym.
    apply Hd2; cbn; auto.
  Qed.

  Lemma f_step_refines f o : finv f ->
    match s_step cmp eqk (vec f) o with
    | Ok (out, l) => exists f', f_step cmp eqk f o = Ok (out, f') /\ finv f' /\ vec f' = l
    | UB => f_step cmp eqk f o = UB
    | Throw => False
    | NoFuel => False
    end.
  Proof.
    intros Hi. destruct o as [|x|x| | |x| | |]; cbn [s_step f_step].
    - exists f_empty. split; [reflexivity|]. split; [apply finv_empty|reflexivity].
    - pose proof (f_push_spec x f Hi) as H. destruct (find (eqk x) (vec f)) as [y|].
      + rewrite H. cbn [bind]. eauto.
      + destruct H as (f' & H & Hi' & Hv). rewrite H. cbn [bind]. eauto.
    - pose proof (f_remove_spec x f Hi) as H. destruct (find (eqk x) (vec f)) as [y|].
      + destruct H as (f' & H & Hi' & Hv). rewrite H. cbn [bind]. eauto.
      + rewrite H. cbn [bind]. eauto.
    - pose proof (f_pop_spec f Hi) as H. destruct (rev (vec f)) as [|x r].
      + rewrite H. reflexivity.
      + destruct H as (f' & H & Hi' & Hv). rewrite H. cbn [bind]. eauto.
    - unfold f_top. destruct (rev (vec f)) as [|x r]; [reflexivity|]. cbn [bind]. eauto.
    - unfold f_find. rewrite set_find_vec by auto. eauto.
    - unfold f_size. eauto.
    - unfold f_is_empty. exists f. split; auto. destruct (vec f); reflexivity.
    - eauto.
  Qed.

  Lemma f_run_refines ops : forall f, finv f -> f_run cmp eqk f ops = s_run cmp eqk (vec f) ops.
  Proof.
    induction ops as [|o ops IH]; intros f Hi; cbn [f_run s_run]; auto.
    pose proof (f_step_refines f o Hi) as H.
    destruct (s_step cmp eqk (vec f) o) as [[out l]| | |]; try tauto.
    - destruct H as (f' & H & Hi' & Hv). rewrite H. cbn [bind]. rewrite IH by auto. now rewrite Hv.
    - now rewrite H.
  Qed.

  Lemma f_run_refines_empty ops : f_run cmp eqk f_empty ops = s_run cmp eqk [] ops.
  Proof. apply (f_run_refines ops f_empty), finv_empty. Qed.

  (** ** Facts about the specification itself *)
  Definition sinv (l : list T) := ordered cmp l /\ distinct eqk l.

  Lemma FOP_rev_tl (R : T -> T -> Prop) l x r : rev l = x :: r -> ForallOrdPairs R l -> ForallOrdPairs R (rev r).
  Proof.
    intros E H. assert (Hv : l = rev r ++ [x]) by (rewrite <- (rev_involutive l), E; reflexivity).
    rewrite Hv in H. apply FOP_app in H. tauto.
  Qed.

  Lemma s_step_inv l o out l' : sinv l -> s_step cmp eqk l o = Ok (out, l') -> sinv l'.
  Proof.
    intros [Ho Hd] H.
    destruct o as [|x|x| | |x| | |]; cbn [s_step] in H;
      try (injection H as <- <-; now split).
    - injection H as <- <-. split; constructor.
    - destruct (find (eqk x) l) eqn:E; injection H as <- <-; split; auto.
      + apply s_insert_ordered; auto.
      + apply s_insert_distinct; auto.
    - destruct (find (eqk x) l) eqn:E; injection H as <- <-; split; auto; apply FOP_filter; auto.
    - destruct (rev l) as [|x r] eqn:E; [discriminate|]. injection H as <- <-.
      split; eapply FOP_rev_tl; eauto.
    - destruct (rev l) as [|x r] eqn:E; [discriminate|]. injection H as <- <-. now split.
  Qed.

  Lemma s_state_inv ops : forall l l', sinv l -> s_state cmp eqk l ops = Ok l' -> sinv l'.
  Proof.
    induction ops as [|o ops IH]; intros l l' Hi H; cbn [s_state] in H.
    - injection H as <-. auto.
    - destruct (s_step cmp eqk l o) as [[out l1]| | |] eqn:E; try discriminate. cbn [bind] in H.
      eapply IH; [|exact H]. eapply s_step_inv; eauto.
  Qed.

  Lemma s_state_inv_empty ops l' : s_state cmp eqk [] ops = Ok l' -> sinv l'.
  Proof. apply s_state_inv. split; constructor. Qed.

  (** The popped element is outranked by no stored element. *)
  Lemma s_top_max l x r : sinv l -> rev l = x :: r -> forall y, In y l -> cmp x y = false.
  Proof.
    intros [Ho Hd] E y Hy.
    assert (Hv : l = rev r ++ [x]) by (rewrite <- (rev_involutive l), E; reflexivity).
    rewrite Hv in Ho, Hy. apply FOP_app in Ho as (_ & _ & H).
    apply in_app_or in Hy as [Hy|[->|[]]].
    - apply H; cbn; auto.
    - apply (swo_irrefl _ _ Hswo).
  Qed.

  (** Insertion puts the new element behind all elements of equal priority, hence it is popped first. *)
  Lemma s_insert_behind x l :
    exists l1 l2, s_insert cmp x l = l1 ++ x :: l2 /\ l = l1 ++ l2 /\
      (sinv l -> (forall y, In y l2 -> cmp x y = true) /\ (forall y, In y l1 -> cmp x y = false)).
  Proof.
    induction l as [|y l (l1 & l2 & H1 & H2 & H3)]; cbn [s_insert].
    - exists [], []. repeat split; auto; easy.
    - destruct (cmp x y) eqn:E.
      + exists [], (y :: l). repeat split; auto; [|easy]. intros z [->|Hz]; auto.
        destruct H as [Ho _]. inversion Ho as [|? ? Hf Hp]; subst.
        eapply Forall_forall in Hf; eauto. cbn in Hf. destruct (cmp x z) eqn:E2; auto.
        rewrite <- E. symmetry. eapply (swo_incomp _ _ Hswo); eauto.
      + exists (y :: l1), l2. rewrite H1, H2. repeat split; auto.
        * intros z Hz. destruct H as [Ho Hd]. inversion Ho; inversion Hd; subst.
          apply H3; auto. split; auto.
        * intros z [->|Hz]; auto. destruct H as [Ho Hd]. inversion Ho; inversion Hd; subst.
          apply H3; auto. split; auto.
  Qed.
End Proofs.
