(** The picture of the obstacle heuristic. *)
From Coq Require Import Reals Lra.
From Verif Require Import Base RealBase Grid_model Grid_spec Grid_proofs Frontier_model AStarN2_spec Coords_model Coords_proofs Straight_model ObstacleMap_model Gvd_model
  ObstHeur_model ObstHeur_spec ObstHeur_proofs World_model World_spec World_proofs WorldClear_proofs Planner_model Planner_spec Planner_proofs PlannerMap_proofs PlannerRepeat_proofs
  Visual_model Visual_spec Visual_proofs.
From Verif Require Gvd_spec.
From Coq Require Import ZifyBool ZifyNat ZifyN.
Local Open Scope R_scope.

(** * The largest cost *)
Lemma max_cost_spec (g : grid (value R)) l : (forall c, In c l -> exists x, grid_get g c = Ok x) -> forall best, exists r, max_cost g l best = Ok r /\
  match r with
  | None => best = None /\ forall c, In c l -> grid_get g c = Ok None
  | Some m => (best = Some m \/ exists c, In c l /\ grid_get g c = Ok (Some m)) /\ (forall x, best = Some x -> x <= m) /\ (forall c x, In c l -> grid_get g c = Ok (Some x) -> x <= m)
  end.
Proof.
  induction l as [|c l IH]; intros H best; cbn [max_cost].
  - exists best. split; auto. destruct best as [m|]; [|split; auto; intros c []]. split; auto. split; [intros x E; injection E as ->; lra|intros c x []].
  - destruct (H c (or_introl eq_refl)) as (x & Ex). rewrite Ex. cbn [bind]. destruct (IH (fun c' Hc => H c' (or_intror Hc)) (match x with None => best | Some x => match best with None => Some x | Some b => Some (Rmax b x) end end)) as (r & Er & Hr).
    exists r. split; [exact Er|]. destruct r as [m|].
    + destruct Hr as (A & B & C). split; [|split].
      * destruct A as [A|(c' & Hc & Ec)]; [|right; exists c'; split; auto; now right]. destruct x as [x|]; [|auto]. destruct best as [b|]; injection A as <-; [|right; exists c; split; auto; now left].
        unfold Rmax. destruct (Rle_dec b x); [right; exists c; split; auto; now left|auto].
      * intros y ->. destruct x as [x|]; [|auto]. specialize (B _ eq_refl). pose proof (Rmax_l y x). lra.
      * intros c' y [<-|Hc] Ey; [|eauto]. rewrite Ex in Ey. injection Ey as ->. destruct best as [b|]; specialize (B _ eq_refl); auto. pose proof (Rmax_r b y). lra.
    + destruct Hr as (A & B). destruct x as [x|]; [destruct best; discriminate|]. split; auto. intros c' [<-|Hc]; auto.
Qed.

Lemma grey_range best cost : (0 <= grey best cost <= 255)%Z.
Proof.
  unfold grey. destruct best as [m|]; [|lia]. destruct cost as [x|]; [|destruct (Rltb m 0); lia]. destruct (Reqb m 0); [destruct (Rltb x 0); lia|].
  set (f := Rmax 0 (Rmin ((m - x) / m * 255) 255)). assert (0 <= f <= 255) as [F1 F2].
  { unfold f. split; [apply Rmax_l|]. apply Rmax_lub; [lra|apply Rmin_r]. }
  destruct (Rtrunc_spec f) as [(_ & B & C)|(A & _)]; [|lra]. split; auto. assert (IZR (Rtrunc f) <= 255) by lra. now apply le_IZR.
Qed.

(** * The picture of a heuristic of this size *)
Lemma picture_shows st m n : sized m n st -> exists bytes p best, oh_picture st = Ok bytes /\ read_ppm bytes = Some p /\ p_width p = m /\ p_height p = n /\ p_max p = 255%Z /\
  (match best with
   | None => forall c, inside m n c -> grid_get (o_cost st) c = Ok None
   | Some M => (exists c, inside m n c /\ grid_get (o_cost st) c = Ok (Some M)) /\ (forall c x, inside m n c -> grid_get (o_cost st) c = Ok (Some x) -> x <= M)
   end) /\
  (forall c e x, inside m n c -> grid_get (o_explored st) c = Ok e -> grid_get (o_cost st) c = Ok x ->
   let g := if e : bool then grey best x else 0%Z in shown p c = Some (g, g, g)).
Proof.
  intros [(G1 & G2 & G3) (H1 & H2 & H3)]. unfold oh_picture. rewrite G2, G3.
  assert (Gc : forall c, inside m n c -> exists x, grid_get (o_cost st) c = Ok x) by (intros c Hc; apply grid_get_ok; [exact G1|now rewrite G2, G3]).
  assert (Ge : forall c, inside m n c -> exists x, grid_get (o_explored st) c = Ok x) by (intros c Hc; apply grid_get_ok; [exact H1|now rewrite H2, H3]).
  destruct (max_cost_spec (o_cost st) (map_cells m n)) with (best := None : option R) as (best & Eb & Hb); [intros c Hc; apply Gc; now apply map_cells_In|].
  rewrite Eb. cbn [bind].
  assert (Ec : forall c e x, inside m n c -> grid_get (o_explored st) c = Ok e -> grid_get (o_cost st) c = Ok x -> let g := if e : bool then grey best x else 0%Z in cost_color st best c = Ok (g, g, g)).
  { intros c e x Hc E1 E2. unfold cost_color. rewrite E1. cbn [bind]. destruct e; [|reflexivity]. unfold value in *. cbn [negb]. rewrite E2. reflexivity. }
  destruct (file_read m n (cost_color st best)) as (bytes & p & Ef & Ep & P1 & P2 & P3 & P4).
  - destruct G1 as (? & _). lia.
  - destruct G1 as (_ & ? & _). lia.
  - intros c Hc. destruct (Gc c Hc) as (x & Ex). destruct (Ge c Hc) as (e & Ee). eauto.
  - exists bytes, p, best. repeat (split; [assumption|]). split.
    + clear - Hb. destruct best as [M|].
      * destruct Hb as ([Hb|(c & Hc & E)] & _ & Hb2); [discriminate|]. split; [exists c; split; [now apply map_cells_In|exact E]|]. intros c' x Hc' Ex. apply (Hb2 c'); auto. now apply map_cells_In.
      * intros c Hc. apply (proj2 Hb). now apply map_cells_In.
    + intros c e x Hc E1 E2. set (g := if e then grey best x else 0%Z). rewrite (P4 c g g g Hc (Ec c e x Hc E1 E2)). assert (0 <= g <= 255)%Z by (unfold g; destruct e; [apply grey_range|lia]). now rewrite Z.mod_small by lia.
Qed.

Lemma grey_between M x : 0 < M -> 0 <= x <= M -> IZR (grey (Some M) (Some x)) <= 255 * (1 - x / M) < IZR (grey (Some M) (Some x)) + 1.
Proof.
  intros HM Hx. unfold grey. destruct (Reqb_spec M 0); [lra|]. assert (E : (M - x) / M * 255 = 255 * (1 - x / M)) by (field; lra). rewrite E.
  assert (0 <= x / M <= 1) as [Q1 Q2].
  { split; [apply Rmult_le_pos; [lra|left; apply Rinv_0_lt_compat; lra]|]. apply Rmult_le_reg_r with M; [lra|]. unfold Rdiv. rewrite Rmult_assoc, Rinv_l by lra. lra. }
  rewrite Rmin_left by lra. rewrite Rmax_right by lra. destruct (Rtrunc_spec (255 * (1 - x / M))) as [(_ & B & _)|(A & _)]; lra.
Qed.

(** * Fuel *)
Lemma oh_loop_more {C} ltb add (zero one diag : C) rows columns occ fuel : forall fuel' st r, (fuel <= fuel')%nat ->
  oh_loop ltb add zero one diag fuel rows columns occ st = Ok r -> oh_loop ltb add zero one diag fuel' rows columns occ st = Ok r.
Proof.
  induction fuel as [|fuel IH]; intros [|fuel'] st r Hf E; try discriminate; try lia. cbn [oh_loop] in *. destruct st as [fr st]. destruct (f_is_empty fr); auto.
  destruct (f_pop _ _) as [[x fr1]| | |]; try discriminate. cbn [bind] in *. destruct (grid_set _ _ _) as [e| | |]; try discriminate. cbn [bind] in *.
  destruct (oh_visit_all _ _ _ _ _ _ _ _ _) as [y| | |]; try discriminate. cbn [bind] in *. apply IH; auto. lia.
Qed.
Lemma oh_update_more {C} ltb add (zero one diag : C) rows columns occ start st fuel fuel' r : (fuel <= fuel')%nat ->
  oh_update ltb add zero one diag fuel rows columns occ start st = Ok r -> oh_update ltb add zero one diag fuel' rows columns occ start st = Ok r.
Proof.
  intros Hf E. unfold oh_update in *. destruct (oh_reset _ _ _) as [st1| | |]; try discriminate. cbn [bind] in *. destruct (negb _); auto.
  destruct (f_push _ _ _ _) as [[x fr]| | |]; try discriminate. cbn [bind] in *. destruct (grid_set _ _ _) as [g| | |]; try discriminate. cbn [bind] in *. eapply oh_loop_more; eauto.
Qed.

Lemma new_exists m n : (0 < m)%Z -> (0 < n)%Z -> exists st : ostate R, oh_new m n = Ok st.
Proof.
  intros Hm Hn. unfold oh_new. destruct (proj2 (@grid_new_iff (option R) m n None) (conj Hm Hn)) as (g & ->). cbn [bind].
  destruct (proj2 (@grid_new_iff bool m n false) (conj Hm Hn)) as (e & ->). cbn [bind]. eauto.
Qed.

(** * After an update *)
Lemma updated_picture m n occ o start fuel st0 st : sized m n st0 -> answers m n occ o -> inside m n start ->
  oh_update Rltb Rplus 0 1 (sqrt 2) fuel m n occ start st0 = Ok st ->
  exists bytes p len M, oh_picture st = Ok bytes /\ read_ppm bytes = Some p /\ p_width p = m /\ p_height p = n /\ p_max p = 255%Z /\
  (forall c l, walk m n o start l c -> (exists l', walk m n o start l' c /\ len c = walk_cost octile start l') /\ len c <= sqrt 2 * walk_cost octile start l /\ len c <= M) /\
  (exists c l, walk m n o start l c /\ len c = M) /\
  forall c, inside m n c -> exists g, shown p c = Some (g, g, g) /\
    ((forall l, ~ walk m n o start l c) -> g = 0%Z) /\
    (forall l, walk m n o start l c -> (M = 0 -> g = 0%Z) /\ (0 < M -> IZR g <= 255 * (1 - len c / M) < IZR g + 1)).
Proof.
  intros Sz A Hs E. pose proof Hs as [Hr Hc]. destruct (new_exists m n) as (new & En); [lia|lia|]. assert (U : updated Rltb Rplus 0 1 (sqrt 2) m n new) by now constructor.
  pose proof (update_size Rltb Rplus 0 1 (sqrt 2) m n _ _ _ _ _ _ _ E Sz) as Sz'.
  set (k := Nat.max fuel (S (Z.to_nat m * Z.to_nat n))). apply (oh_update_more _ _ _ _ _ _ _ _ _ _ fuel k) in E; [|unfold k; lia].
  rewrite (update_same _ _ _ _ _ _ _ _ _ _ st0 new Sz) in E; [|now apply (updated_size Rltb Rplus 0 1 (sqrt 2))].
  assert (Hk : (Z.to_nat m * Z.to_nat n < k)%nat) by (unfold k; lia). clearbody k.
  destruct (update_explored Rltb Rplus 0 1 (sqrt 2) (fun x => x) exact_R m n occ o start k new U A Hs Hk) as (st' & E' & X). assert (st' = st) as -> by congruence. clear E'.
  assert (St : forall c, inside m n c -> _) by (intros c Hc'; exact (update_stored Rltb Rplus 0 1 (sqrt 2) (fun x => x) exact_R m n occ o start k new st c U A Hs Hk E Hc')).
  destruct (picture_shows st m n Sz') as (bytes & p & best & P1 & P2 & P3 & P4 & P5 & Hb & P6).
  set (len := fun c => match grid_get (o_cost st) c with Ok (Some x) => x | _ => 0 end).
  assert (Lw : forall l p q, walk m n o p l q -> inside m n p -> inside m n q) by (clear; induction l as [|c l IH]; cbn; intros p q H Hp; [now subst|]; destruct H as [(H & _) W]; eauto).
  assert (Lpos : forall l q, 0 <= walk_cost octile q l) by (clear; induction l as [|c l IH]; intros q; cbn; [lra|]; specialize (IH c); unfold octile at 1; pose proof sqrt2_bounds; destruct (_ || _); lra).
  assert (Lc : forall c l, walk m n o start l c -> grid_get (o_cost st) c = Ok (Some (len c)) /\ (exists l', walk m n o start l' c /\ len c = walk_cost octile start l') /\ len c <= sqrt 2 * walk_cost octile start l).
  { intros c l W. destruct (proj1 (St c (Lw _ _ _ W Hs)) l W) as (x & Ex & L1 & L2 & _). unfold len. rewrite Ex. split; auto. split; auto. pose proof (walk_length_cost m n o l start c W). pose proof sqrt2_bounds. nra. }
  destruct best as [M|]; [|exfalso; specialize (Hb start Hs); destruct (Lc start [] eq_refl) as (Q & _); unfold value in *; congruence].
  destruct Hb as ((cm & Hcm & Ecm) & Hmax).
  assert (R0 : forall c, inside m n c -> {exists l, walk m n o start l c} + {forall l, ~ walk m n o start l c}).
  { intros c Hc'. destruct (grid_get (o_explored st) c) as [[|]| | |] eqn:Ee.
    - left. destruct (X c Hc') as (b & Eb & Q). apply Q. congruence.
    - right. intros l W. destruct (X c Hc') as (b & Eb & Q). assert (b = true) by (apply Q; eauto). congruence.
    - exfalso. destruct (X c Hc') as (b & Eb & _). congruence.
    - exfalso. destruct (X c Hc') as (b & Eb & _). congruence.
    - exfalso. destruct (X c Hc') as (b & Eb & _). congruence. }
  exists bytes, p, len, M. repeat (split; [assumption|]). split; [|split].
  - intros c l W. destruct (Lc c l W) as (Q1 & Q2 & Q3). split; auto. split; auto. apply (Hmax c); auto. eapply Lw; eauto.
  - destruct (R0 cm Hcm) as [(l & W)|N]; [|rewrite (proj2 (St cm Hcm) N) in Ecm; discriminate]. exists cm, l. split; auto. destruct (Lc cm l W) as (Q & _). unfold value in *. congruence.
  - intros c Hc'. destruct (X c Hc') as (e & Ee & Q). destruct (R0 c Hc') as [(l & W)|N].
    + destruct (Lc c l W) as (Q1 & (l' & W' & Q2) & Q3). pose proof (P6 c e (Some (len c)) Hc' Ee Q1) as Sh. assert (e = true) as -> by (apply Q; eauto). cbn zeta in Sh.
      exists (grey (Some M) (Some (len c))). split; [exact Sh|]. split; [intros N; now destruct (N l)|]. intros _ _. pose proof (Hmax c _ Hc' Q1). pose proof (Lpos l' start). split.
      * intros ->. unfold grey. destruct (Reqb_spec 0 0); [|lra]. destruct (Rltb_spec (len c) 0); auto. lra.
      * intros HM. apply grey_between; lra.
    + pose proof (P6 c e None Hc' Ee (proj2 (St c Hc') N)) as Sh. assert (e = false) as -> by (destruct e; auto; destruct Q as [Q _]; destruct (Q eq_refl) as (l & W); now destruct (N l)). cbn zeta in Sh.
      exists 0%Z. split; [exact Sh|]. split; auto. intros l W. now destruct (N l).
Qed.

(** * The planner *)
Section PlannerPicture.
Variables top topv : nat -> list (cell * Z) -> nat.
Hypothesis Htop : Gvd_spec.priority top.
Hypothesis Htopv : Gvd_spec.priority topv.
Variable fuel : nat.
Variable Rng : Type.
Variable draw : Rng -> R * Rng.
Notation sy_step := (sy_step top topv fuel Rng draw).
Notation sy_run := (sy_run top topv fuel Rng draw).
Notation sy_search := (sy_search top topv fuel Rng draw).

(** A heuristic exists once the planner was initialized, and has some size. *)
Lemma step_pictured s x s' : sy_step s x = Ok s' ->
  (forall q, pl_parts (sy_planner s) = Some q -> exists m n, sized m n (pa_obst q)) -> (forall q, pl_parts (sy_planner s') = Some q -> exists m n, sized m n (pa_obst q)).
Proof.
  intros E F. destruct x as [x|lower upper|v r|v r|v|q|q|r|x|]; cbn [Planner_model.sy_step] in E; try (injection E as <-; exact F).
  - destruct (wd_step top topv fuel (sy_world s) x) as [w| | |]; try discriminate. cbn [bind] in E. injection E as <-. destruct x; try exact F. unfold detach. cbn [sy_planner].
    destruct (pl_parts (sy_planner s)) as [[v [|g] h o]|] eqn:Ep; cbn; rewrite ?Ep; auto. destruct (wd_dist _); cbn; rewrite ?Ep; auto. intros q E. injection E as <-. exact (F _ eq_refl).
  - unfold sy_validator in E. destruct (wd_size _ _ _) as [w| | |]; try discriminate. cbn [bind] in E. injection E as <-. unfold detach. cbn [sy_planner].
    destruct (pl_parts (sy_planner s)) as [[v [|g] h o]|] eqn:Ep; cbn; rewrite ?Ep; auto. destruct (wd_dist _); cbn; rewrite ?Ep; auto. intros q E. injection E as <-. exact (F _ eq_refl).
  - unfold change_validator in E. destruct (vget _ _); try discriminate. cbn [bind] in E. destruct (vset _ _ _); try discriminate. cbn [bind] in E. injection E as <-. exact F.
  - unfold change_validator in E. destruct (vget _ _); try discriminate. cbn [bind] in E. destruct (vset _ _ _); try discriminate. cbn [bind] in E. injection E as <-. exact F.
  - destruct v as [v|].
    + pose proof (initialize_fitted top topv fuel Rng draw s v s' E) as G. intros [v' d h o] Eq. eexists; eexists. eapply G. exact Eq.
    + cbn [sy_initialize rmap bind fst] in E. injection E as <-. exact F.
  - destruct (sy_search s) as [[s1 b]| | |] eqn:Es; try discriminate. cbn [rmap bind fst] in E. injection E as <-. destruct (pl_ready (sy_planner s)) eqn:Hr; [|rewrite search_unready in Es by exact Hr; injection Es as <- _; exact F].
    destruct (search_inv _ _ _ _ _ _ _ _ Es Hr) as (v & d & h & o & va & start & o' & w' & d' & g & gm & sol & st & rng & path & E1 & _ & _ & E4 & E5 & _ & _ & _ & _ & ->).
    intros q Eq. cbn [sy_planner pl_parts] in Eq. injection Eq as <-. cbn [pa_obst]. destruct (F _ E1) as (m & n & Sz). exists m, n. cbn [pa_obst] in Sz. eapply update_size; [exact E4|exact Sz].
Qed.

Lemma run_pictured l : forall s s', sy_run s l = Ok s' ->
  (forall q, pl_parts (sy_planner s) = Some q -> exists m n, sized m n (pa_obst q)) -> (forall q, pl_parts (sy_planner s') = Some q -> exists m n, sized m n (pa_obst q)).
Proof.
  induction l as [|x l IH]; intros s s' E F; cbn [Planner_model.sy_run] in E; [injection E as <-; exact F|]. destruct (sy_step s x) as [s1| | |] eqn:E1; try discriminate. cbn [bind] in E.
  apply (IH s1); auto. eapply step_pictured; eauto.
Qed.

Lemma step_parts s x s' : sy_step s x = Ok s' -> pl_parts (sy_planner s) <> None -> pl_parts (sy_planner s') <> None.
Proof.
  intros E F. destruct x as [x|lower upper|v r|v r|v|q|q|r|x|]; cbn [Planner_model.sy_step] in E; try (injection E as <-; exact F).
  - destruct (wd_step top topv fuel (sy_world s) x) as [w| | |]; try discriminate. cbn [bind] in E. injection E as <-. destruct x; try exact F. unfold detach. cbn [sy_planner].
    destruct (pl_parts (sy_planner s)) as [[v [|g] h o]|] eqn:Ep; cbn; rewrite ?Ep; auto. destruct (wd_dist _); cbn; rewrite ?Ep; easy.
  - unfold sy_validator in E. destruct (wd_size _ _ _) as [w| | |]; try discriminate. cbn [bind] in E. injection E as <-. unfold detach. cbn [sy_planner].
    destruct (pl_parts (sy_planner s)) as [[v [|g] h o]|] eqn:Ep; cbn; rewrite ?Ep; auto. destruct (wd_dist _); cbn; rewrite ?Ep; easy.
  - unfold change_validator in E. destruct (vget _ _); try discriminate. cbn [bind] in E. destruct (vset _ _ _); try discriminate. cbn [bind] in E. injection E as <-. exact F.
  - unfold change_validator in E. destruct (vget _ _); try discriminate. cbn [bind] in E. destruct (vset _ _ _); try discriminate. cbn [bind] in E. injection E as <-. exact F.
  - destruct v as [v|].
    + destruct (initialize_inv top topv fuel Rng draw _ _ _ E) as (va & w & h & o & _ & _ & ->). easy.
    + cbn [sy_initialize rmap bind fst] in E. injection E as <-. exact F.
  - destruct (sy_search s) as [[s1 b]| | |] eqn:Es; try discriminate. cbn [rmap bind fst] in E. injection E as <-. destruct (pl_ready (sy_planner s)) eqn:Hr; [|rewrite search_unready in Es by exact Hr; injection Es as <- _; exact F].
    destruct (search_inv _ _ _ _ _ _ _ _ Es Hr) as (v & d & h & o & va & start & o' & w' & d' & g & gm & sol & st & rng & path & E1 & _ & _ & E4 & E5 & _ & _ & _ & _ & ->). easy.
Qed.
Lemma run_parts l : forall s s', sy_run s l = Ok s' -> pl_parts (sy_planner s) <> None -> pl_parts (sy_planner s') <> None.
Proof.
  induction l as [|x l IH]; intros s s' E F; cbn [Planner_model.sy_run] in E; [injection E as <-; exact F|]. destruct (sy_step s x) as [s1| | |] eqn:E1; try discriminate. cbn [bind] in E.
  apply (IH s1); auto. eapply step_parts; eauto.
Qed.
Lemma run_no_parts l : forall s s', (forall v, ~ In (PInitialize (Some v)) l) -> sy_run s l = Ok s' -> pl_parts (sy_planner s) = None -> pl_ready (sy_planner s) = false -> pl_parts (sy_planner s') = None.
Proof.
  induction l as [|x l IH]; intros s s' N E F Hr; cbn [Planner_model.sy_run] in E; [injection E as <-; exact F|]. destruct (sy_step s x) as [s1| | |] eqn:E1; try discriminate. cbn [bind] in E.
  assert (Q : pl_parts (sy_planner s1) = None /\ pl_ready (sy_planner s1) = false).
  { clear IH E. destruct x as [x|lower upper|v r|v r|v|q|q|r|x|]; cbn [Planner_model.sy_step] in E1; try (injection E1 as <-; auto; fail).
    - destruct (wd_step top topv fuel (sy_world s) x) as [w| | |]; try discriminate. cbn [bind] in E1. injection E1 as <-. destruct x; auto. unfold detach. cbn [sy_planner]. rewrite F. auto.
    - unfold sy_validator in E1. destruct (wd_size _ _ _) as [w| | |]; try discriminate. cbn [bind] in E1. injection E1 as <-. unfold detach. cbn [sy_planner]. rewrite F. auto.
    - unfold change_validator in E1. destruct (vget _ _); try discriminate. cbn [bind] in E1. destruct (vset _ _ _); try discriminate. cbn [bind] in E1. injection E1 as <-. auto.
    - unfold change_validator in E1. destruct (vget _ _); try discriminate. cbn [bind] in E1. destruct (vset _ _ _); try discriminate. cbn [bind] in E1. injection E1 as <-. auto.
    - destruct v as [v|]; [exfalso; apply (N v); now left|]. cbn [sy_initialize rmap bind fst] in E1. injection E1 as <-. auto.
    - rewrite search_unready in E1 by exact Hr. cbn [rmap bind fst] in E1. injection E1 as <-. auto. }
  destruct Q. apply (IH s1); auto. intros v Hv. apply (N v). now right.
Qed.

(** Once initialized, the planner can always write a picture. *)
Lemma always_pictured resolution junk m rng a v b s : sy_run (sy_new Rng resolution junk m rng) (a ++ PInitialize (Some v) :: b) = Ok s ->
  exists bytes p, sy_picture s = Ok bytes /\ read_ppm bytes = Some p.
Proof.
  intros E. assert (N : pl_parts (sy_planner s) <> None).
  { rewrite sy_run_app in E. destruct (sy_run _ a) as [s1| | |]; try discriminate. cbn [bind Planner_model.sy_run] in E. destruct (sy_step s1 _) as [s2| | |] eqn:E2; try discriminate. cbn [bind] in E.
    eapply run_parts; [exact E|]. destruct (initialize_inv _ _ _ _ _ _ _ _ E2) as (va & w & h & o & _ & _ & ->). easy. }
  pose proof (run_pictured _ _ _ E) as F. unfold sy_picture. destruct (pl_parts (sy_planner s)) as [[v' d h o]|]; [|easy].
  destruct (F ltac:(discriminate) _ eq_refl) as (m' & n' & Sz). destruct (picture_shows o m' n' Sz) as (bytes & p & _ & P1 & P2 & _). eauto.
Qed.

Lemma used_size x ops : In x ops -> (x = WUpdate \/ x = WGvd \/ x = WGvdUpdate) -> forall f md, world_used f false md ops -> has_size ops.
Proof.
  intros Hi Hx. assert (Q : forall f sz md, world_used f sz md ops -> sz = true \/ has_size ops); [|intros f md U; destruct (Q f false md U); [discriminate|auto]].
  induction ops as [|y ops IH]; [easy|]. intros f sz md [U1 U2]. destruct Hi as [->|Hi].
  - left. destruct Hx as [->|[->| ->]]; try exact U1. apply U1.
  - destruct (IH Hi _ _ _ U2) as [Q|Q]; [|right; now right]. destruct y; auto. right. now left.
Qed.

(** What a search leaves in the picture. *)
Lemma searched_picture resolution junk m rng a v b s s' r start :
  let l := a ++ PInitialize (Some v) :: b in
  let F := world_frames (fr_new resolution junk) (history l) in
  let blocked := world_covered (fr_new resolution junk) [] false (history l) in
  let reaches := walk (fr_rows F) (fr_cols F) blocked start in
  undisturbed b -> sy_run (sy_new Rng resolution junk m rng) l = Ok s -> world_used (fr_new resolution junk) false false (history l) -> sy_search s = Ok (s', r) ->
  world_to_cell F (position (pl_goal (sy_planner s))) true = Ok start -> inside (fr_rows F) (fr_cols F) start ->
  exists bytes p len M, sy_picture s' = Ok bytes /\ read_ppm bytes = Some p /\ p_width p = fr_rows F /\ p_height p = fr_cols F /\ p_max p = 255%Z /\
  (forall c w, reaches w c -> (exists w', reaches w' c /\ len c = walk_cost octile start w') /\ len c <= sqrt 2 * walk_cost octile start w /\ len c <= M) /\
  (exists c w, reaches w c /\ len c = M) /\
  forall c, inside (fr_rows F) (fr_cols F) c -> exists g, shown p c = Some (g, g, g) /\
    ((forall w, ~ reaches w c) -> g = 0%Z) /\
    (forall w, reaches w c -> (M = 0 -> g = 0%Z) /\ (0 < M -> IZR g <= 255 * (1 - len c / M) < IZR g + 1)).
Proof.
  intros l F blocked reaches Ub E U Es Est Hs. unfold l in *.
  assert (H : sy_run (sy_new Rng resolution junk m rng) (a ++ PInitialize (Some v) :: b) = Ok s -> fitted Rng s /\ pl_ready (sy_planner s) = true).
  { clear - Ub. intros E. rewrite sy_run_app in E. destruct (sy_run _ a) as [s1| | |]; try discriminate. cbn [bind Planner_model.sy_run] in E. destruct (sy_step s1 _) as [s2| | |] eqn:E2; try discriminate. cbn [bind] in E.
    split; [eapply run_fitted; [exact Ub| |exact E]; eapply initialize_fitted; exact E2|]. eapply run_attached; [exact Ub| |exact E]. eapply initialize_attaches. exact E2. }
  destruct (H E) as [Fi Hr]. clear H.
  assert (Hz : has_size (history l)).
  { apply (used_size WGvd) with (f := fr_new resolution junk) (md := false); auto. unfold l, history. destruct (map_calls_app a (PInitialize (Some v) :: b) false false) as (r1 & k1 & ->). apply in_or_app. right. cbn [map_calls]. now left. }
  destruct (planner_map top topv Htop Htopv _ _ _ _ _ _ _ _ _ E U Hz) as (g0 & _ & EF & Occ). change (wd_frames (sy_world s) = F) in EF. clearbody F. rewrite EF in Occ.
  destruct (search_inv _ _ _ _ _ _ _ _ Es Hr) as (v1 & d & h & o & va & start1 & o' & w' & d' & g & gm & sol & st & rng' & path & E1 & _ & E3 & E4 & _ & _ & _ & _ & _ & ->).
  rewrite EF in E3, E4. rewrite Est in E3. injection E3 as <-. pose proof (Fi _ _ _ _ E1) as Sz. rewrite EF in Sz.
  unfold sy_picture. cbn [sy_planner pl_parts].
  exact (updated_picture _ _ _ blocked start fuel o o' Sz (fun c Hc => proj1 (Occ c Hc)) Hs E4).
Qed.

(** A goal outside the map. *)
Lemma outside_picture resolution junk m rng a v b s s' r start :
  let l := a ++ PInitialize (Some v) :: b in
  let F := world_frames (fr_new resolution junk) (history l) in
  undisturbed b -> sy_run (sy_new Rng resolution junk m rng) l = Ok s -> world_used (fr_new resolution junk) false false (history l) -> sy_search s = Ok (s', r) ->
  world_to_cell F (position (pl_goal (sy_planner s))) true = Ok start -> ~ inside (fr_rows F) (fr_cols F) start ->
  exists bytes p, sy_picture s' = Ok bytes /\ read_ppm bytes = Some p /\ p_width p = fr_rows F /\ p_height p = fr_cols F /\ p_max p = 255%Z /\
  forall c, inside (fr_rows F) (fr_cols F) c -> shown p c = Some (0, 0, 0)%Z.
Proof.
  intros l F Ub E U Es Est Hs. unfold l in *.
  assert (H : sy_run (sy_new Rng resolution junk m rng) (a ++ PInitialize (Some v) :: b) = Ok s -> fitted Rng s /\ pl_ready (sy_planner s) = true).
  { clear - Ub. intros E. rewrite sy_run_app in E. destruct (sy_run _ a) as [s1| | |]; try discriminate. cbn [bind Planner_model.sy_run] in E. destruct (sy_step s1 _) as [s2| | |] eqn:E2; try discriminate. cbn [bind] in E.
    split; [eapply run_fitted; [exact Ub| |exact E]; eapply initialize_fitted; exact E2|]. eapply run_attached; [exact Ub| |exact E]. eapply initialize_attaches. exact E2. }
  destruct (H E) as [Fi Hr]. clear H.
  assert (Hz : has_size (history l)).
  { apply (used_size WGvd) with (f := fr_new resolution junk) (md := false); auto. unfold l, history. destruct (map_calls_app a (PInitialize (Some v) :: b) false false) as (r1 & k1 & ->). apply in_or_app. right. cbn [map_calls]. now left. }
  destruct (planner_map top topv Htop Htopv _ _ _ _ _ _ _ _ _ E U Hz) as (g0 & _ & EF & _). change (wd_frames (sy_world s) = F) in EF. clearbody F.
  destruct (search_inv _ _ _ _ _ _ _ _ Es Hr) as (v1 & d & h & o & va & start1 & o' & w' & d' & g & gm & sol & st & rng' & path & E1 & _ & E3 & E4 & _ & _ & _ & _ & _ & ->).
  rewrite EF in E3, E4. rewrite Est in E3. injection E3 as <-. pose proof (Fi _ _ _ _ E1) as Sz. rewrite EF in Sz.
  assert (V : cell_is_valid start = false).
  { revert Est Hs. unfold world_to_cell, grid_to_cell. destruct (cast_int _) as [x| | |]; try discriminate. cbn [bind]. destruct (cast_int _) as [y| | |]; try discriminate. cbn [bind negb].
    destruct (inside_cell F (Cell x y)) eqn:Ei; intros Q N; injection Q as <-; [|reflexivity]. destruct N. now apply inside_cell_iff. }
  unfold sy_picture. cbn [sy_planner pl_parts].
  destruct Sz as [(G1 & G2 & G3) Sz2] eqn:Sz'. clear Sz'.
  destruct (new_exists (fr_rows F) (fr_cols F)) as (new & En); [rewrite <- G2; apply G1|rewrite <- G3; apply G1|].
  assert (Un : updated Rltb Rplus 0 1 (sqrt 2) (fr_rows F) (fr_cols F) new) by now constructor.
  pose proof (update_size Rltb Rplus 0 1 (sqrt 2) _ _ _ _ _ _ _ _ _ E4 (conj (conj G1 (conj G2 G3)) Sz2)) as Szo.
  rewrite (update_same _ _ _ _ _ _ _ _ _ _ o new (conj (conj G1 (conj G2 G3)) Sz2)) in E4; [|now apply (updated_size Rltb Rplus 0 1 (sqrt 2))].
  destruct (update_outside Rltb Rplus 0 1 (sqrt 2) (fr_rows F) (fr_cols F) (om_occupied (wd_map (sy_world s))) start fuel new Un V) as (o2 & E2 & Q). assert (o2 = o') as -> by congruence.
  destruct (picture_shows o' _ _ Szo) as (bytes & p & best & P1 & P2 & P3 & P4 & P5 & _ & P6). exists bytes, p. repeat (split; [assumption|]).
  intros c Hc. destruct (Q c Hc) as [Q1 Q2]. exact (P6 c false None Hc Q1 Q2).
Qed.
End PlannerPicture.
