From Verif Require Import Base Grid_model Grid_spec Grid_proofs ObstacleMap_model ObstacleMap_spec.
From Coq Require Import ZifyBool ZifyNat Sorted.
Open Scope Z_scope.

(** ** The set of identifiers *)
Notation sorted := (StronglySorted Z.lt).

Lemma gap_spec r : forall a, sorted (a :: r) ->
  let e := match adjacent_gap (a :: r) with Some g => g | None => last (a :: r) 0 end in
  a <= e /\ (forall j, a <= j <= e -> In j (a :: r)) /\ ~ In (e + 1) (a :: r).
Proof.
  induction r as [|b r IH]; intros a Hs.
  - cbn. split; [lia|]. split; [intros; lia|]. lia.
  - inversion Hs as [|? ? Hs' Hf]; subst. specialize (IH b Hs'). cbv zeta in *.
    change (adjacent_gap (a :: b :: r)) with (if negb (a + 1 =? b) then Some a else adjacent_gap (b :: r)).
    change (last (a :: b :: r) 0) with (last (b :: r) 0).
    assert (Hab : a < b) by (inversion Hf; auto).
    assert (Hbr : Forall (fun j => b <= j) r).
    { inversion Hs' as [|? ? _ Hf']; subst. apply Forall_forall. intros j Hj. rewrite Forall_forall in Hf'. specialize (Hf' j Hj). lia. }
    destruct (Z.eqb_spec (a + 1) b) as [E|E]; cbn [negb].
    + destruct IH as (H1 & H2 & H3). set (e := match adjacent_gap (b :: r) with Some g => g | None => last (b :: r) 0 end) in *.
      split; [lia|]. split.
      * intros j Hj. destruct (Z.eq_dec j a) as [->|]; [left; auto|]. right. apply H2. lia.
      * intros [H|H]; [lia|auto].
    + split; [lia|]. split.
      * intros j Hj. left. lia.
      * intros [H|[H|H]]; [lia|lia|]. rewrite Forall_forall in Hbr. specialize (Hbr _ H). lia.
Qed.

Lemma find_smallest_ok ids : sorted ids -> Forall (fun i => 0 <= i) ids -> smallest_unused ids (find_smallest_id ids).
Proof.
  intros Hs H0. unfold find_smallest_id. destruct ids as [|h r].
  - split; [lia|]. split; [auto|]. intros; lia.
  - destruct (Z.gtb_spec h 0) as [Hh|Hh].
    + split; [lia|]. split; [|intros; lia]. intros [H|H]; [lia|].
      inversion Hs as [|? ? _ Hf]; subst. rewrite Forall_forall in Hf. specialize (Hf _ H). lia.
    + inversion H0; subst. assert (h = 0) by lia. subst h. pose proof (gap_spec r 0 Hs) as H. cbv zeta in H.
      destruct (adjacent_gap (0 :: r)) as [g|].
      * destruct H as (H4 & H5 & H6). split; [lia|]. split; auto. intros j Hj. apply H5. lia.
      * destruct H as (H4 & H5 & H6). split; [lia|]. split; auto. intros j Hj. apply H5. lia.
Qed.

Lemma set_insert_In i ids j : In j (set_insert i ids) <-> j = i \/ In j ids.
Proof.
  induction ids as [|a r IH]; cbn [set_insert]; [cbn; intuition|].
  destruct (Z.ltb_spec i a); [cbn; intuition|]. destruct (Z.eqb_spec i a); [subst; cbn; intuition|].
  cbn [In]. rewrite IH. intuition.
Qed.

Lemma set_insert_sorted i ids : sorted ids -> sorted (set_insert i ids).
Proof.
  induction ids as [|a r IH]; intros Hs; cbn [set_insert]; [repeat constructor|].
  inversion Hs as [|? ? Hs' Hf]; subst.
  destruct (Z.ltb_spec i a).
  - constructor; auto. constructor; auto. eapply Forall_impl; [|exact Hf]. cbn. intros; lia.
  - destruct (Z.eqb_spec i a); auto. constructor; auto. apply Forall_forall. intros j Hj.
    apply set_insert_In in Hj as [->|Hj]; [lia|]. rewrite Forall_forall in Hf. auto.
Qed.

Lemma filter_sorted f ids : sorted ids -> sorted (filter f ids).
Proof.
  induction 1 as [|a r Hs IH Hf]; cbn; [constructor|]. destruct (f a); auto. constructor; auto.
  apply Forall_forall. intros j Hj. apply filter_In in Hj as [Hj _]. rewrite Forall_forall in Hf. auto.
Qed.

Lemma set_erase_In i ids j : In j (set_erase i ids) <-> j <> i /\ In j ids.
Proof. unfold set_erase. rewrite filter_In. destruct (Z.eqb_spec j i); cbn; intuition congruence. Qed.

(** ** The invariant *)
Record oinv (st : omap) : Prop := {
  oi_keys : NoDup (map fst (om_obs st));
  oi_vals : NoDup (map snd (om_obs st));
  oi_sorted : sorted (om_ids st);
  oi_ids : forall i, In i (om_ids st) <-> In i (map snd (om_obs st));
  oi_pos : forall i, In i (map snd (om_obs st)) -> 0 <= i
}.

Lemma lookup_In o l i : lookup o l = Some i -> In (o, i) l.
Proof.
  induction l as [|[o' i'] l IH]; cbn; [easy|]. destruct (Nat.eqb_spec o' o); intros H; [left; congruence|right; auto].
Qed.
Lemma lookup_None o l : lookup o l = None <-> ~ In o (map fst l).
Proof.
  induction l as [|[o' i'] l IH]; cbn; [intuition|]. destruct (Nat.eqb_spec o' o); [intuition congruence|].
  rewrite IH. intuition.
Qed.
Lemma In_lookup o l i : NoDup (map fst l) -> In (o, i) l -> lookup o l = Some i.
Proof.
  induction l as [|[o' i'] l IH]; cbn; intros Hn H; [easy|]. inversion Hn as [|? ? Hni Hn']; subst.
  destruct H as [H|H].
  - injection H as -> ->. now rewrite Nat.eqb_refl.
  - destruct (Nat.eqb_spec o' o) as [->|]; auto. destruct Hni. now apply (in_map fst) in H.
Qed.
Lemma NoDup_map_filter {A B} (f : A -> B) g l : NoDup (map f l) -> NoDup (map f (filter g l)).
Proof.
  induction l as [|a l IH]; cbn; auto. intros H. inversion H as [|? ? Hni Hn]; subst. destruct (g a); auto.
  cbn. constructor; auto. intros Hi. apply Hni. apply in_map_iff in Hi as (x & Hx & Hi). apply filter_In in Hi as [Hi _].
  apply in_map_iff. eauto.
Qed.

Lemma om_new_inv : oinv om_new.
Proof. split; cbn; try constructor; auto; easy. Qed.

Lemma oinv_ids_ok st : oinv st -> smallest_unused (map snd (om_obs st)) (find_smallest_id (om_ids st)).
Proof.
  intros [H1 H2 H3 H4 H5]. destruct (find_smallest_ok (om_ids st)) as (Ha & Hb & Hc); auto.
  - apply Forall_forall. intros i Hi. apply H5, H4, Hi.
  - split; auto. split; [now rewrite <- H4|]. intros j Hj. apply H4. auto.
Qed.

Lemma om_add_obs st o cells st' b : oinv st -> om_add st o cells = Ok (st', b) -> oinv st' /\
  match lookup o (om_obs st) with
  | Some _ => st' = st /\ b = false
  | None => b = true /\ om_obs st' = (o, find_smallest_id (om_ids st)) :: om_obs st
  end.
Proof.
  intros Hi H. unfold om_add in H. destruct (om_matrix st) as [g|]; [|discriminate].
  destruct (lookup o (om_obs st)) eqn:E.
  - injection H as <- <-. auto.
  - destruct (paint g cells _) as [g'| | |]; cbn [bind] in H; try discriminate.
    assert (st' = OMap ((o, find_smallest_id (om_ids st)) :: om_obs st) (set_insert (find_smallest_id (om_ids st)) (om_ids st)) (Some g') /\ b = true)
      as [-> ->] by (split; congruence). clear H. split; [|auto].
    pose proof (oinv_ids_ok st Hi) as (Ha & Hb & Hc). destruct Hi as [H1 H2 H3 H4 H5].
    split; cbn [om_obs om_ids map fst snd].
    + constructor; auto. now apply lookup_None.
    + constructor; auto.
    + now apply set_insert_sorted.
    + intros i. rewrite set_insert_In, H4. cbn. intuition.
    + intros i [<-|Hi]; auto.
Qed.

Lemma om_remove_obs st o cells st' b : oinv st -> om_remove st o cells = Ok (st', b) -> oinv st' /\
  match lookup o (om_obs st) with
  | None => st' = st /\ b = false
  | Some i => b = true /\ om_obs st' = filter (fun p => negb (Nat.eqb (fst p) o)) (om_obs st)
  end.
Proof.
  intros Hi H. unfold om_remove in H. destruct (om_matrix st) as [g|]; [|discriminate].
  destruct (lookup o (om_obs st)) as [id|] eqn:E.
  - destruct (paint g cells _) as [g'| | |]; cbn [bind] in H; try discriminate.
    assert (st' = OMap (filter (fun p => negb (Nat.eqb (fst p) o)) (om_obs st)) (set_erase id (om_ids st)) (Some g') /\ b = true)
      as [-> ->] by (split; congruence). clear H. split; [|auto].
    destruct Hi as [H1 H2 H3 H4 H5]. apply lookup_In in E as Hin.
    split; cbn [om_obs om_ids].
    + now apply NoDup_map_filter.
    + now apply NoDup_map_filter.
    + now apply filter_sorted.
    + intros i. rewrite set_erase_In, H4. rewrite !in_map_iff. split.
      * intros [Hne ([o' i'] & <- & Hi)]. exists (o', i'). split; auto. apply filter_In. split; auto. cbn.
        destruct (Nat.eqb_spec o' o) as [->|]; auto. destruct Hne. cbn.
        apply (In_lookup _ _ _ H1) in Hi. congruence.
      * intros ([o' i'] & <- & Hi). apply filter_In in Hi as [Hi Hne]. cbn in Hne |- *. split; [|exists (o', i'); auto].
        intros ->. destruct (Nat.eqb_spec o' o) as [|Hoo]; [discriminate|]. apply Hoo.
        clear - H2 Hi Hin. induction (om_obs st) as [|[x y] l IH]; [easy|]. cbn in H2. inversion H2 as [|? ? Hni Hn]; subst.
        destruct Hi as [Hi|Hi], Hin as [Hin|Hin].
        -- congruence.
        -- injection Hi as -> ->. destruct Hni. now apply (in_map snd) in Hin.
        -- injection Hin as -> ->. destruct Hni. now apply (in_map snd) in Hi.
        -- auto.
    + intros i Hi. apply H5. apply in_map_iff in Hi as (p & Hp & Hi). apply filter_In in Hi as [Hi _]. apply in_map_iff. eauto.
  - injection H as <- <-. auto.
Qed.

Lemma om_init_obs st m n st' : om_init st m n = Ok st' -> om_obs st' = om_obs st /\ om_ids st' = om_ids st.
Proof. unfold om_init. destruct (grid_new m n (-1)); cbn; try discriminate. intros H. injection H as <-. auto. Qed.

Lemma om_step_inv st x st' : oinv st -> om_step st x = Ok st' -> oinv st'.
Proof.
  intros Hi H. destruct x as [m n|o cells|o cells]; cbn in H.
  - apply om_init_obs in H as [Ho Hd]. destruct Hi as [H1 H2 H3 H4 H5]. split; rewrite ?Ho, ?Hd; auto.
  - unfold rmap in H. destruct (om_add st o cells) as [[s b]| | |] eqn:E; cbn in H; try discriminate.
    injection H as <-. eapply om_add_obs; eauto.
  - unfold rmap in H. destruct (om_remove st o cells) as [[s b]| | |] eqn:E; cbn in H; try discriminate.
    injection H as <-. eapply om_remove_obs; eauto.
Qed.

Lemma om_run_inv ops : forall st st', oinv st -> om_run st ops = Ok st' -> oinv st'.
Proof.
  induction ops as [|x ops IH]; intros st st' Hi H; cbn [om_run] in H.
  - now injection H as <-.
  - destruct (om_step st x) as [s| | |] eqn:E; cbn [bind] in H; try discriminate. eapply IH; [|exact H]. eapply om_step_inv; eauto.
Qed.

(** ** Registration *)
Definition reg_ok (st : omap) (reg : list nat) : Prop := NoDup reg /\ forall o, In o reg <-> In o (map fst (om_obs st)).

Definition reg_step (reg : list nat) (x : op) : list nat :=
  match x with
  | OInit _ _ => reg
  | OAdd o _ => if in_dec Nat.eq_dec o reg then reg else o :: reg
  | ORemove o _ => remove Nat.eq_dec o reg
  end.

Lemma NoDup_remove_dec o (l : list nat) : NoDup l -> NoDup (remove Nat.eq_dec o l).
Proof.
  induction 1 as [|a l Hn Hd IH]; cbn; [constructor|]. destruct (Nat.eq_dec o a); auto. constructor; auto.
  intros H. apply in_remove in H as [H _]. auto.
Qed.

Lemma keys_filter o (l : list (nat * Z)) o' : In o' (map fst (filter (fun p => negb (Nat.eqb (fst p) o)) l)) <-> o' <> o /\ In o' (map fst l).
Proof.
  rewrite !in_map_iff. split.
  - intros (p & <- & H). apply filter_In in H as [H Hne]. split; [|eauto]. intros E. rewrite E, Nat.eqb_refl in Hne. discriminate.
  - intros [Hne (p & <- & H)]. exists p. split; auto. apply filter_In. split; auto. destruct (Nat.eqb_spec (fst p) o); auto.
Qed.

Lemma reg_step_ok st x st' reg : oinv st -> reg_ok st reg -> om_step st x = Ok st' -> reg_ok st' (reg_step reg x).
Proof.
  intros Hi [Hn Hr] H. destruct x as [m n|o cells|o cells]; cbn in H |- *.
  - apply om_init_obs in H as [Ho _]. split; auto. intros o. now rewrite Ho.
  - unfold rmap in H. destruct (om_add st o cells) as [[s b]| | |] eqn:E; cbn in H; try discriminate.
    injection H as <-. apply om_add_obs in E as [_ E]; auto. destruct (lookup o (om_obs st)) as [i|] eqn:El.
    + destruct E as [-> _]. apply lookup_In, (in_map fst) in El. cbn in El. apply Hr in El.
      destruct (in_dec Nat.eq_dec o reg); [|easy]. now split.
    + destruct E as [_ E]. apply lookup_None in El. rewrite <- Hr in El. destruct (in_dec Nat.eq_dec o reg); [easy|].
      split; [now constructor|]. intros o'. rewrite E. cbn. rewrite Hr. reflexivity.
  - unfold rmap in H. destruct (om_remove st o cells) as [[s b]| | |] eqn:E; cbn in H; try discriminate.
    injection H as <-. apply om_remove_obs in E as [_ E]; auto. destruct (lookup o (om_obs st)) as [i|] eqn:El.
    + destruct E as [_ E]. split; [now apply NoDup_remove_dec|]. intros o'. rewrite E, keys_filter, <- Hr. split.
      * intros Hx. apply in_remove in Hx. intuition.
      * intros [H1 H2]. now apply in_in_remove.
    + destruct E as [-> _]. apply lookup_None in El. rewrite <- Hr in El. rewrite notin_remove; auto. now split.
Qed.

Lemma registered_after_cons reg x ops : registered_after reg (x :: ops) = registered_after (reg_step reg x) ops.
Proof. now destruct x. Qed.

Lemma om_run_reg ops : forall st st' reg, oinv st -> reg_ok st reg -> om_run st ops = Ok st' ->
  reg_ok st' (registered_after reg ops).
Proof.
  induction ops as [|x ops IH]; intros st st' reg Hi Hr H; cbn [om_run] in H.
  - injection H as <-. exact Hr.
  - destruct (om_step st x) as [s| | |] eqn:E; cbn [bind] in H; try discriminate. rewrite registered_after_cons.
    eapply IH; [|eapply reg_step_ok; eauto|exact H]. eapply om_step_inv; eauto.
Qed.

Lemma reg_ok_new : reg_ok om_new [].
Proof. split; [constructor|]. cbn. easy. Qed.

Lemma same_length_of_NoDup {A} (l1 l2 : list A) : NoDup l1 -> NoDup l2 -> (forall a, In a l1 <-> In a l2) -> length l1 = length l2.
Proof.
  intros H1 H2 H. apply Nat.le_antisymm; apply NoDup_incl_length; auto; intros a Ha; now apply H.
Qed.

(** Everything about identifiers, after any history. *)
Lemma ids_history ops st : om_run om_new ops = Ok st ->
  NoDup (map fst (om_obs st)) /\ NoDup (map snd (om_obs st)) /\
  (forall o, In o (map fst (om_obs st)) <-> In o (registered_after [] ops)) /\
  om_num st = Z.of_nat (length (registered_after [] ops)) /\
  (forall o cells st' b, om_add st o cells = Ok (st', b) ->
     (In o (registered_after [] ops) /\ b = false /\ st' = st) \/
     (~ In o (registered_after [] ops) /\ b = true /\
      exists i, smallest_unused (map snd (om_obs st)) i /\ om_obs st' = (o, i) :: om_obs st)) /\
  (forall o cells st' b, om_remove st o cells = Ok (st', b) ->
     (~ In o (registered_after [] ops) /\ b = false /\ st' = st) \/
     (In o (registered_after [] ops) /\ b = true /\
      forall o' i, In (o', i) (om_obs st') <-> In (o', i) (om_obs st) /\ o' <> o)).
Proof.
  intros H. pose proof (om_run_inv ops _ _ om_new_inv H) as Hi. pose proof (om_run_reg ops _ _ _ om_new_inv reg_ok_new H) as [Hn Hr].
  split; [apply Hi|]. split; [apply Hi|]. split; [intros o; now rewrite Hr|]. split; [|split].
  - unfold om_num. f_equal. rewrite <- (map_length fst). apply same_length_of_NoDup; [apply Hi|auto|]. intros o. now rewrite Hr.
  - intros o cells st' b Ha. apply om_add_obs in Ha as [_ Ha]; auto. destruct (lookup o (om_obs st)) as [i|] eqn:El.
    + left. destruct Ha as [-> ->]. apply lookup_In, (in_map fst), Hr in El. auto.
    + right. destruct Ha as [-> Ha]. apply lookup_None in El. rewrite Hr. split; auto. split; auto.
      exists (find_smallest_id (om_ids st)). split; auto. now apply oinv_ids_ok.
  - intros o cells st' b Ha. apply om_remove_obs in Ha as [_ Ha]; auto. destruct (lookup o (om_obs st)) as [i|] eqn:El.
    + right. destruct Ha as [-> Ha]. apply lookup_In, (in_map fst), Hr in El. split; auto. split; auto. rewrite Ha.
      intros o' j. rewrite filter_In. cbn. destruct (Nat.eqb_spec o' o); cbn; intuition congruence.
    + left. destruct Ha as [-> ->]. apply lookup_None in El. rewrite Hr. auto.
Qed.

(** ** Occupancy *)
Lemma paint_spec cells : forall (g : grid Z) v, gwf g -> Forall (inside (rows g) (columns g)) cells ->
  exists g', paint g cells v = Ok g' /\ gwf g' /\ rows g' = rows g /\ columns g' = columns g /\
    forall q, inside (rows g) (columns g) q ->
      grid_get g' q = if existsb (cell_eqb q) cells then Ok v else grid_get g q.
Proof.
  induction cells as [|c cells IH]; intros g v Hw Hc; cbn [paint].
  - exists g. cbn. auto 6.
  - inversion Hc; subst. destruct (grid_set_spec g c v Hw) as (g1 & E1 & W1 & R1 & C1 & G1); auto. rewrite E1. cbn [bind].
    destruct (IH g1 v W1) as (g' & E' & W' & R' & C' & G').
    { rewrite R1, C1. auto. }
    exists g'. split; auto. split; auto. split; [congruence|]. split; [congruence|]. intros q Hq.
    rewrite G' by (rewrite R1, C1; auto). cbn [existsb]. rewrite G1 by auto.
    destruct (existsb (cell_eqb q) cells); [now rewrite orb_true_r|]. rewrite orb_false_r.
    destruct (cell_eqb c q) eqn:E, (cell_eqb q c) eqn:E'2; auto.
    + apply cell_eqb_eq in E. subst. rewrite cell_eqb_refl in E'2. discriminate.
    + apply cell_eqb_eq in E'2. subst. rewrite cell_eqb_refl in E. discriminate.
Qed.

(** How the cells of the matrix relate to the marks; [tight] when identifiers are still those of their marker. *)
Definition size_ok (st : omap) (size : option (Z * Z)) : Prop :=
  match size, om_matrix st with
  | Some (m, n), Some g => gwf g /\ rows g = m /\ columns g = n
  | None, None => True
  | _, _ => False
  end.
Definition mark_ok (st : omap) (c : cell) (mark : option nat) : Prop :=
  match om_matrix st with
  | None => True
  | Some g => inside (rows g) (columns g) c ->
    exists v, grid_get g c = Ok v /\ (0 <= v <-> mark <> None)
  end.

Definition step_mark (c : cell) (reg : list nat) (mark : option nat) (x : op) : option nat :=
  match x with
  | OInit _ _ => None
  | OAdd o cells => if in_dec Nat.eq_dec o reg then mark else if existsb (cell_eqb c) cells then Some o else mark
  | ORemove o cells => if in_dec Nat.eq_dec o reg then if existsb (cell_eqb c) cells then None else mark else mark
  end.
Definition step_size (size : option (Z * Z)) (x : op) : option (Z * Z) :=
  match x with OInit m n => Some (m, n) | _ => size end.

Lemma marked_by_cons c reg mark x ops :
  marked_by c reg mark (x :: ops) = marked_by c (reg_step reg x) (step_mark c reg mark x) ops.
Proof.
  destruct x as [m n|o cells|o cells]; cbn [marked_by reg_step step_mark]; auto.
  - destruct (in_dec Nat.eq_dec o reg); auto.
  - destruct (in_dec Nat.eq_dec o reg) as [|Hn]; auto. now rewrite notin_remove.
Qed.

Lemma om_step_marks st x reg size : oinv st -> reg_ok st reg -> size_ok st size -> well_used size [x] ->
  exists st', om_step st x = Ok st' /\ size_ok st' (step_size size x) /\
    forall c mark, mark_ok st c mark -> mark_ok st' c (step_mark c reg mark x).
Proof.
  intros Hi [Hn Hr] Hs Hw. destruct x as [m n|o cells|o cells]; cbn [om_step].
  - cbn in Hw. destruct Hw as (Hm & Hn0 & _). unfold om_init.
    destruct (proj2 (grid_new_iff m n (-1)) (conj Hm Hn0)) as [g Hg]. rewrite Hg. cbn [bind].
    eexists. split; [reflexivity|]. pose proof (grid_new_wf _ _ _ _ Hg) as (Hw & Hrr & Hcc). split.
    + cbn. auto.
    + intros c mark _. unfold mark_ok. cbn [om_matrix]. rewrite Hrr, Hcc. intros Hc. exists (-1).
      split; [now apply (grid_new_get m n)|]. cbn. split; [lia|easy].
  - cbn in Hw. destruct size as [[m n]|]; [|easy]. destruct Hw as [Hw _]. unfold size_ok in Hs.
    unfold om_add. destruct (om_matrix st) as [g|] eqn:Em; [|easy]. destruct Hs as (Hg & Hrr & Hcc).
    destruct (lookup o (om_obs st)) as [i|] eqn:El.
    + cbn [rmap bind]. unfold rmap. cbn. eexists. split; [reflexivity|]. split; [unfold size_ok; rewrite Em; auto|].
      apply lookup_In, (in_map fst), Hr in El. intros c mark Hc. destruct (in_dec Nat.eq_dec o reg) as [|Hx]; [auto|]. destruct Hx; auto.
    + rewrite <- Hrr, <- Hcc in Hw. destruct (paint_spec cells g (find_smallest_id (om_ids st)) Hg Hw) as (g' & Eg & Wg & Rg & Cg & Gg).
      rewrite Eg. unfold rmap. cbn [bind fst]. eexists. split; [reflexivity|]. split.
      * unfold size_ok. cbn. repeat split; try apply Wg; congruence.
      * apply lookup_None in El. rewrite <- Hr in El. intros c mark Hc. unfold mark_ok in *. rewrite Em in Hc. cbn [om_matrix step_mark].
        rewrite Rg, Cg. intros Hin. destruct (Hc Hin) as (v & Hv & Hvm). destruct (in_dec Nat.eq_dec o reg); [easy|].
        rewrite Gg by auto. destruct (existsb (cell_eqb c) cells).
        -- eexists. split; [reflexivity|]. pose proof (oinv_ids_ok st Hi) as (H0 & _). split; [discriminate|auto].
        -- eauto.
  - cbn in Hw. destruct size as [[m n]|]; [|easy]. destruct Hw as [Hw _]. unfold size_ok in Hs.
    unfold om_remove. destruct (om_matrix st) as [g|] eqn:Em; [|easy]. destruct Hs as (Hg & Hrr & Hcc).
    destruct (lookup o (om_obs st)) as [i|] eqn:El.
    + rewrite <- Hrr, <- Hcc in Hw. destruct (paint_spec cells g (-1) Hg Hw) as (g' & Eg & Wg & Rg & Cg & Gg).
      rewrite Eg. unfold rmap. cbn [bind fst]. eexists. split; [reflexivity|]. split.
      * unfold size_ok. cbn. repeat split; try apply Wg; congruence.
      * apply lookup_In, (in_map fst), Hr in El. cbn in El. intros c mark Hc. unfold mark_ok in *. rewrite Em in Hc. cbn [om_matrix step_mark].
        rewrite Rg, Cg. intros Hin. destruct (Hc Hin) as (v & Hv & Hvm). destruct (in_dec Nat.eq_dec o reg); [|easy].
        rewrite Gg by auto. destruct (existsb (cell_eqb c) cells).
        -- eexists. split; [reflexivity|]. split; [lia|easy].
        -- eauto.
    + unfold rmap. cbn. eexists. split; [reflexivity|]. split; [unfold size_ok; rewrite Em; auto|].
      apply lookup_None in El. rewrite <- Hr in El. intros c mark Hc. destruct (in_dec Nat.eq_dec o reg); [easy|auto].
Qed.

Lemma well_used_cons size x ops : well_used size (x :: ops) -> well_used size [x] /\ well_used (step_size size x) ops.
Proof. destruct x as [m n|o cells|o cells]; cbn; [intuition|destruct size as [[m n]|]; intuition|destruct size as [[m n]|]; intuition]. Qed.
Lemma final_size_cons size x ops : final_size size (x :: ops) = final_size (step_size size x) ops.
Proof. now destruct x. Qed.

Lemma om_run_marks ops : forall st reg size, oinv st -> reg_ok st reg -> size_ok st size -> well_used size ops ->
  exists st', om_run st ops = Ok st' /\ size_ok st' (final_size size ops) /\
    forall c mark, mark_ok st c mark -> mark_ok st' c (marked_by c reg mark ops).
Proof.
  induction ops as [|x ops IH]; intros st reg size Hi Hr Hs Hw.
  - exists st. cbn. auto.
  - apply well_used_cons in Hw as [Hw Hw']. destruct (om_step_marks st x reg size Hi Hr Hs Hw) as (st1 & E1 & S1 & M1).
    cbn [om_run]. rewrite E1. cbn [bind].
    destruct (IH st1 (reg_step reg x) (step_size size x)) as (st' & E' & S' & M'); auto.
    + eapply om_step_inv; eauto.
    + eapply reg_step_ok; eauto.
    + exists st'. split; auto. rewrite final_size_cons. split; auto. intros c mark Hc. rewrite marked_by_cons. auto.
Qed.

Lemma occupied_marked ops : well_used None ops -> exists st, om_run om_new ops = Ok st /\
  forall m n c, final_size None ops = Some (m, n) -> inside m n c ->
    om_occupied st c = Ok (match marked_by c [] None ops with Some _ => true | None => false end).
Proof.
  intros Hw. destruct (om_run_marks ops om_new [] None om_new_inv reg_ok_new I Hw) as (st & E & S & M).
  exists st. split; auto. intros m n c Hf Hc. rewrite Hf in S. unfold size_ok in S. specialize (M c None I).
  unfold mark_ok in M. unfold om_occupied. destruct (om_matrix st) as [g|]; [|easy]. destruct S as (Hg & <- & <-).
  destruct (M Hc) as (v & -> & Hv). cbn [bind]. destruct (marked_by c [] None ops) as [o|].
  - destruct (Z.leb_spec 0 v); auto. assert (0 <= v) by (apply Hv; discriminate). lia.
  - destruct (Z.leb_spec 0 v) as [Hp|]; auto. apply Hv in Hp. easy.
Qed.

(** ** Obstacles that do not move *)
Lemma existsb_cells c cells : existsb (cell_eqb c) cells = true <-> In c cells.
Proof.
  rewrite existsb_exists. split.
  - intros (x & Hx & E). apply cell_eqb_eq in E. now subst.
  - intros H. exists c. split; auto. apply cell_eqb_refl.
Qed.

(** Marks are by registered obstacles covering the cell. *)
Lemma static_mark_sound shape c ops : static shape ops -> forall reg mark, NoDup reg ->
  (forall o, mark = Some o -> In o reg /\ In c (shape o)) ->
  forall o, marked_by c reg mark ops = Some o -> In o (registered_after reg ops) /\ In c (shape o).
Proof.
  induction ops as [|x ops IH]; intros Hs reg mark Hn Hm o; [apply Hm|].
  inversion Hs as [|? ? Hx Hs']; subst. rewrite marked_by_cons, registered_after_cons. apply IH; auto.
  - destruct x as [| |]; cbn; [easy| |now apply NoDup_remove_dec]. destruct (in_dec Nat.eq_dec o0 reg); auto. now constructor.
  - destruct x as [m n|o' cells|o' cells]; [easy| |]; subst cells; cbn [step_mark reg_step]; intros o1 E.
    + destruct (in_dec Nat.eq_dec o' reg); auto. destruct (existsb (cell_eqb c) (shape o')) eqn:Ec.
      * injection E as <-. apply existsb_cells in Ec. cbn. auto.
      * apply Hm in E. cbn. intuition.
    + destruct (in_dec Nat.eq_dec o' reg) as [Hi|Hi].
      * destruct (existsb (cell_eqb c) (shape o')) eqn:Ec; [discriminate|]. apply Hm in E as [E1 E2]. split; auto.
        apply in_in_remove; auto. intros ->. apply existsb_cells in E2. congruence.
      * rewrite notin_remove; auto.
Qed.

(** If only one of the obstacles used covers the cell, it is marked while that obstacle is registered. *)
Lemma static_mark_complete shape c ops : static shape ops ->
  (forall o1 o2, mentions ops o1 -> mentions ops o2 -> In c (shape o1) -> In c (shape o2) -> o1 = o2) ->
  forall reg mark,
  (forall o1 o2, (In o1 reg \/ mentions ops o1) -> (In o2 reg \/ mentions ops o2) -> In c (shape o1) -> In c (shape o2) -> o1 = o2) ->
  (forall o, In o reg -> In c (shape o) -> mark = Some o) ->
  forall o, In o (registered_after reg ops) -> In c (shape o) -> marked_by c reg mark ops = Some o.
Proof.
  induction ops as [|x ops IH]; intros Hs Hd reg mark Hd' Hm o; [apply Hm|].
  inversion Hs as [|? ? Hx Hs']; subst. rewrite marked_by_cons, registered_after_cons. apply IH; auto.
  - intros o1 o2 H1 H2. apply Hd; now right.
  - intros o1 o2 H1 H2. apply Hd'.
    + destruct H1 as [H1|H1]; [|right; now right]. destruct x as [m n|o' cells|o' cells]; [easy| |]; cbn in H1.
      * destruct (in_dec Nat.eq_dec o' reg); [auto|]. destruct H1 as [<-|H1]; [right; left; auto|auto].
      * apply in_remove in H1. left. tauto.
    + destruct H2 as [H2|H2]; [|right; now right]. destruct x as [m n|o' cells|o' cells]; [easy| |]; cbn in H2.
      * destruct (in_dec Nat.eq_dec o' reg); [auto|]. destruct H2 as [<-|H2]; [right; left; auto|auto].
      * apply in_remove in H2. left. tauto.
  - destruct x as [m n|o' cells|o' cells]; [easy| |]; subst cells; cbn [step_mark reg_step]; intros o1 E Ec.
    + destruct (in_dec Nat.eq_dec o' reg); auto. destruct (existsb (cell_eqb c) (shape o')) eqn:Ex.
      * apply existsb_cells in Ex. f_equal. destruct E as [E|E]; auto. apply Hd'; auto. right. now left.
      * destruct E as [<-|E]; auto. apply existsb_cells in Ec. congruence.
    + destruct (in_dec Nat.eq_dec o' reg) as [Hi|Hi].
      * apply in_remove in E as [E Hne]. destruct (existsb (cell_eqb c) (shape o')) eqn:Ex; auto.
        apply existsb_cells in Ex. destruct Hne. apply Hd'; auto.
      * rewrite notin_remove in E; auto.
Qed.

Lemma static_well_used shape m n ops : static shape ops -> (forall o, mentions ops o -> Forall (inside m n) (shape o)) ->
  well_used (Some (m, n)) ops.
Proof.
  induction ops as [|x ops IH]; intros Hs Hi; [exact I|]. inversion Hs as [|? ? Hx Hs']; subst.
  assert (H : well_used (Some (m, n)) ops) by (apply IH; auto; intros o Ho; apply Hi; now right).
  destruct x as [m' n'|o cells|o cells]; [easy| |]; subst cells; cbn; (split; [apply Hi; now left|exact H]).
Qed.
Lemma static_final_size shape size ops : static shape ops -> final_size size ops = size.
Proof.
  induction ops as [|x ops IH]; intros Hs; auto. inversion Hs as [|? ? Hx Hs']; subst. rewrite final_size_cons. destruct x; [easy| |]; auto.
Qed.

Lemma static_occupied shape m n ops : 0 < m -> 0 < n -> static shape ops ->
  (forall o, mentions ops o -> Forall (inside m n) (shape o)) ->
  exists st, om_run om_new (OInit m n :: ops) = Ok st /\
    forall c, inside m n c ->
      (om_occupied st c = Ok true -> exists o, In o (registered_after [] ops) /\ In c (shape o)) /\
      ((forall o1 o2, mentions ops o1 -> mentions ops o2 -> In c (shape o1) -> In c (shape o2) -> o1 = o2) ->
       (om_occupied st c = Ok true <-> exists o, In o (registered_after [] ops) /\ In c (shape o))).
Proof.
  intros Hm Hn Hs Hi. destruct (occupied_marked (OInit m n :: ops)) as (st & E & O).
  { cbn. split; auto. split; auto. eapply static_well_used; eauto. }
  exists st. split; auto. intros c Hc. specialize (O m n c).
  assert (Hf : final_size None (OInit m n :: ops) = Some (m, n)) by (cbn; eapply static_final_size; eauto).
  rewrite (O Hf Hc). cbn [marked_by].
  assert (Hsound : forall o, marked_by c [] None ops = Some o -> In o (registered_after [] ops) /\ In c (shape o)).
  { apply static_mark_sound; auto; [constructor|discriminate]. }
  split.
  - destruct (marked_by c [] None ops) as [o|]; [|discriminate]. intros _. exists o. auto.
  - intros Hd. split.
    + destruct (marked_by c [] None ops) as [o|]; [|discriminate]. intros _. exists o. auto.
    + intros (o & Ho & Hco).
      rewrite (static_mark_complete shape c ops Hs Hd [] None) with (o := o); auto.
      * intros o1 o2 [H1|H1] [H2|H2]; try easy. auto.
      * easy.
Qed.

(** ** The value of an occupied cell is the identifier of an obstacle covering it *)
Definition value_ok (shape : nat -> list cell) (st : omap) (c : cell) : Prop :=
  match om_matrix st with
  | None => False
  | Some g => grid_get g c = Ok (-1) \/ exists o i, In (o, i) (om_obs st) /\ In c (shape o) /\ grid_get g c = Ok i
  end.

Lemma value_step shape st x st' m n c : oinv st -> size_ok st (Some (m, n)) -> static shape [x] -> well_used (Some (m, n)) [x] ->
  inside m n c -> om_step st x = Ok st' -> value_ok shape st c -> size_ok st' (Some (m, n)) /\ value_ok shape st' c.
Proof.
  intros Hi Hs Hst Hw Hc H Hv. inversion Hst as [|? ? Hx _]; subst.
  unfold size_ok in *. unfold value_ok in Hv.
  destruct x as [m' n'|o cells|o cells]; [easy| |]; subst cells; cbn in Hw; destruct Hw as [Hw _]; cbn in H; unfold rmap in H.
  - unfold om_add in H. destruct (om_matrix st) as [g|] eqn:Em; [|easy]. destruct Hs as (Hg & <- & <-).
    destruct (lookup o (om_obs st)) as [i|] eqn:El.
    + cbn in H. injection H as <-. unfold value_ok. rewrite Em. auto.
    + destruct (paint_spec (shape o) g (find_smallest_id (om_ids st)) Hg Hw) as (g' & Eg & Wg & Rg & Cg & Gg).
      rewrite Eg in H. cbn in H. injection H as <-. unfold value_ok. cbn [om_matrix om_obs]. split; [auto|]. rewrite Gg by auto.
      destruct (existsb (cell_eqb c) (shape o)) eqn:Ec.
      * right. apply existsb_cells in Ec. exists o, (find_smallest_id (om_ids st)). cbn. auto.
      * destruct Hv as [Hv|(o' & i & H1 & H2 & H3)]; [auto|]. right. exists o', i. cbn. auto.
  - unfold om_remove in H. destruct (om_matrix st) as [g|] eqn:Em; [|easy]. destruct Hs as (Hg & <- & <-).
    destruct (lookup o (om_obs st)) as [i|] eqn:El.
    + destruct (paint_spec (shape o) g (-1) Hg Hw) as (g' & Eg & Wg & Rg & Cg & Gg).
      rewrite Eg in H. cbn in H. injection H as <-. unfold value_ok. cbn [om_matrix om_obs]. split; [auto|]. rewrite Gg by auto.
      destruct (existsb (cell_eqb c) (shape o)) eqn:Ec; [auto|].
      destruct Hv as [Hv|(o' & i' & H1 & H2 & H3)]; [auto|]. right. exists o', i'. split; [|auto]. apply filter_In. split; auto.
      cbn. destruct (Nat.eqb_spec o' o) as [->|]; auto. apply existsb_cells in H2. congruence.
    + cbn in H. injection H as <-. unfold value_ok. rewrite Em. auto.
Qed.

Lemma value_run shape m n c ops : forall st st', oinv st -> size_ok st (Some (m, n)) -> static shape ops ->
  well_used (Some (m, n)) ops -> inside m n c -> om_run st ops = Ok st' -> value_ok shape st c -> value_ok shape st' c.
Proof.
  induction ops as [|x ops IH]; intros st st' Hi Hs Hst Hw Hc H Hv; cbn [om_run] in H.
  - now injection H as <-.
  - destruct (om_step st x) as [s| | |] eqn:E; cbn [bind] in H; try discriminate.
    apply well_used_cons in Hw as [Hw Hw']. inversion Hst as [|? ? Hx Hst']; subst.
    destruct (value_step shape st x s m n c) as [H1 H2]; auto.
    { constructor; auto. }
    assert (Hsz : step_size (Some (m, n)) x = Some (m, n)) by (destruct x; [easy| |]; auto).
    rewrite Hsz in Hw'. apply (IH s st'); auto. eapply om_step_inv; eauto.
Qed.

Lemma static_value shape m n ops st c v : 0 < m -> 0 < n -> static shape ops ->
  (forall o, mentions ops o -> Forall (inside m n) (shape o)) ->
  om_run om_new (OInit m n :: ops) = Ok st -> inside m n c -> om_value st c = Ok v ->
  v = -1 \/ exists o, In (o, v) (om_obs st) /\ In c (shape o).
Proof.
  intros Hm Hn Hs Hi H Hc Hv. cbn [om_run om_step] in H. unfold om_init in H.
  destruct (proj2 (grid_new_iff m n (-1)) (conj Hm Hn)) as [g Hg]. rewrite Hg in H. cbn [bind] in H.
  pose proof (grid_new_wf _ _ _ _ Hg) as (Hw & Hrr & Hcc).
  assert (Hvo : value_ok shape st c).
  { eapply (value_run shape m n c ops); [| | | | |exact H|]; auto.
    - split; cbn; try constructor; auto; easy.
    - cbn. auto.
    - eapply static_well_used; eauto.
    - left. cbn. now apply (grid_new_get m n). }
  unfold value_ok in Hvo. unfold om_value in Hv. destruct (om_matrix st) as [g'|]; [|easy].
  destruct Hvo as [E|(o & i & H1 & H2 & H3)]; [left; congruence|]. right. exists o. replace v with i by congruence. auto.
Qed.
