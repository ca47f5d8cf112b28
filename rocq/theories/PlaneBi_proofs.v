(** The plane of the unit test of A* (PlaneTest_model.v), searched from both ends with the averaged Euclidean distances. *)
From Coq Require Import Reals Lra.
From Verif Require Import Base RealBase Frontier_model Frontier_spec AStar_model AStar_spec AStar_proofs AStar_opt_proofs Heuristic_proofs
  AStarInf_spec AStarInf_proofs Bidir_model Bidir_spec Bidir_proofs Bidir_opt_proofs BidirInf_proofs PlaneTest_model PlaneTest_proofs.

Definition plane_bi (fuel : nat) (start goal : point2i) :=
  let dist := fun s g => plane_h g s in
  let (hf, hr) := searched_pair (Concrete dist goal) (Concrete dist start) start 0%R start goal in
  bi_search pt_eqb Rltb Rplus 0%R (a_value hf) (a_value hr) plane_succ plane_succ true fuel start goal tt tt.

Lemma plane_back : can_go_back_same_cost plane_succ plane_succ.
Proof.
  intros s a c t H. exists tt. apply plane_step in H as (i & j & -> & Hi & Hj & Hij & ->). destruct s as [x y]. cbn [fst snd].
  pose proof (plane_trans (x + i) (y + j) (- i) (- j) ltac:(lia) ltac:(lia) ltac:(lia)) as H.
  replace (x + i + - i)%Z with x in H by lia. replace (y + j + - j)%Z with y in H by lia.
  replace (- i =? 0)%Z with (i =? 0)%Z in H by lia. replace (- j =? 0)%Z with (j =? 0)%Z in H by lia. exact H.
Qed.

Lemma plane_cost_le s a c t : trans plane_succ s a c t -> (c <= sqrt 2)%R.
Proof.
  intros H. apply plane_step in H as (i & j & _ & _ & _ & _ & ->). pose proof sqrt2_bounds.
  destruct ((i =? 0)%Z || (j =? 0)%Z); lra.
Qed.

Lemma plane_triangle a b s : (plane_h a s <= plane_h a b + plane_h b s)%R.
Proof.
  unfold plane_h. pose proof (triangle (IZR (fst s)) (IZR (snd s)) (IZR (fst a)) (IZR (snd a)) (IZR (fst b)) (IZR (snd b))) as H.
  unfold dist_euc in H. rewrite !minus_IZR. rewrite <- !Rsqr_pow2. lra.
Qed.

Lemma edge_trans {S A P} (succ : P -> S -> list (S * A * R) * P) l : forall s t u e, is_path succ s l t -> In (u, e) (path_edges s l) ->
  trans succ u (step_action e) (step_cost e) (step_state e).
Proof.
  induction l as [|x l IH]; intros s t u e Hl Hi; [contradiction|]. cbn [is_path path_edges] in *. destruct Hl as [Ht Hl].
  destruct Hi as [Hi|Hi]; [injection Hi as <- <-; auto|eauto].
Qed.

Lemma plane_bi_found : forall start goal, exists fuel0, forall fuel, fuel0 <= fuel -> exists b cost,
  plane_bi fuel start goal = Ok (true, b) /\ bi_cost Rplus 0%R (b_sol b) = Some cost /\
  let dx := IZR (Z.abs (fst start - fst goal)) in let dy := IZR (Z.abs (snd start - snd goal)) in
  let least := Rmax (dx + (sqrt 2 - 1) * dy) (dy + (sqrt 2 - 1) * dx) in
  (least <= cost <= least + 2 * sqrt 2)%R.
Proof.
  intros start goal. unfold plane_bi.
  set (f := Concrete (fun s g => plane_h g s) goal). set (r := Concrete (fun s g => plane_h g s) start).
  pose proof (avg_nonneg f r start 0%R start goal) as Hnn.
  pose proof (avg_consistent f r start 0%R start goal plane_succ plane_succ) as Hcons.
  assert (Hsum := fun u v => eq_trans (avg_sum f r start 0%R start goal u) (eq_sym (avg_sum f r start 0%R start goal v))).
  destruct (searched_pair f r start 0%R start goal) as [hf hr]. cbn [fst snd] in *.
  specialize (Hnn (fun s => plane_triangle start goal s) (fun s => ltac:(unfold c_value; cbn; pose proof (plane_triangle goal start s); lra))).
  destruct Hcons as [Hcf Hcr]; [exact plane_back|exact plane_back| | |].
  { intros u a c v H. exact (plane_h_step goal u a c v H). }
  { intros u a c v H. exact (plane_h_step start u a c v H). }
  destruct (plane_way goal (Z.to_nat (Z.max (Z.abs (fst start - fst goal)) (Z.abs (snd start - snd goal)))) start) as (l & Hl & Hc); [lia|].
  assert (Hback : can_go_back plane_succ plane_succ) by (intros s a c t H; destruct (plane_back s a c t H) as (a' & H'); eauto).
  destruct (bi_found_real pt_eqb (a_value hf) (a_value hr) plane_succ plane_succ true plane_nb plane_nb pt_eq plane_det plane_det
    Hback 1%R Rlt_0_1 plane_steps (fun s a c t H => Rle_trans _ _ _ Rle_0_1 (plane_steps s a c t H)) (fun s => proj1 (Hnn s)) start goal l tt tt Hl)
    as (f0 & Hf0).
  exists f0. intros fuel Hfuel. destruct (Hf0 fuel Hfuel) as (b & Hb).
  destruct (bi_bound_gen pt_eqb (a_value hf) (a_value hr) plane_succ plane_succ plane_nb plane_nb pt_eq plane_det plane_det Hcf Hcr plane_back
    start goal fuel tt tt b Hb) as (cost & Hcost & _ & Hbound).
  exists b, cost. split; [exact Hb|]. split; [exact Hcost|]. cbv zeta.
  change (Rmax _ _) with (octile (away goal start)).
  split.
  - destruct (bi_path_forward_R pt_eqb tt (a_value hf) (a_value hr) plane_succ plane_succ true pt_eq start goal fuel tt tt b plane_back Hb)
      as (l1 & l2 & s & Hp & _ & _ & Hg).
    assert (cost = path_cost Rplus 0%R (l1 ++ l2)) as -> by congruence.
    pose proof (octile_path _ _ _ 0%R Hp). lra.
  - specialize (Hc 0%R). destruct (Hbound Hsum (fun s => proj1 (Hnn s)) (fun s => proj2 (Hnn s)) l Hl) as [Hle|(u & e & Hin & Hle)].
    + pose proof sqrt2_bounds. lra.
    + pose proof (edge_trans plane_succ l start goal u e Hl Hin) as Htr. pose proof (plane_cost_le _ _ _ _ Htr) as H1.
      destruct (plane_back _ _ _ _ Htr) as (a' & Htr'). pose proof (Hcf _ _ _ _ Htr') as H2. lra.
Qed.
