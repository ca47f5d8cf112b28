(** Proofs about the non-holonomic heuristic. *)
From Coq Require Import Reals Lra Psatz.
From Verif Require Import Base RealBase Coords_model Coords_proofs Pose_model Pose_spec Pose_proofs Straight_model Straight_spec Bicycle_model Bicycle_spec Rs_model Rs_spec Rs_proofs RsWord_proofs RsSolver_proofs NonHol_model NonHol_spec.
From Coq Require Import ZifyBool ZifyNat ZifyN.
Local Open Scope R_scope.

(** ** Rounding *)
Lemma Rround_spec x : Rabs (IZR (Rround x) - x) <= / 2.
Proof.
  unfold Rround. apply Rabs_between. destruct (Rle_dec 0 x); [pose proof (Rfloor_spec (x + / 2))|pose proof (Rceil_spec (x - / 2))]; lra.
Qed.
Lemma Rround_near x : IZR (Rround x) - / 2 <= x <= IZR (Rround x) + / 2.
Proof. pose proof (Rround_spec x) as H. apply Rabs_between in H. lra. Qed.
Lemma Rround_nonneg x : (0 <= Rround x)%Z <-> - / 2 < x.
Proof.
  unfold Rround. destruct (Rle_dec 0 x).
  - pose proof (Rfloor_spec (x + / 2)). split; [lra|]. intros _. apply Z.lt_succ_r, lt_IZR. rewrite succ_IZR. lra.
  - pose proof (Rceil_spec (x - / 2)). split; intros H0.
    + apply IZR_le in H0. lra.
    + apply Z.lt_succ_r, lt_IZR. rewrite succ_IZR. lra.
Qed.
Lemma Rround_IZR n : Rround (IZR n) = n.
Proof.
  unfold Rround. destruct (Rle_dec 0 (IZR n)); [apply Rfloor_unique|apply Rceil_unique]; lra.
Qed.

Lemma cast_uint_ok x n : cast_uint x = Ok n -> n = Rtrunc x /\ (0 <= n <= uint_max)%Z.
Proof. unfold cast_uint. destruct (_ && _)%bool eqn:E; [|discriminate]. intros H. injection H as <-. lia. Qed.
Lemma cast_uint_IZR n : (0 <= n <= uint_max)%Z -> cast_uint (IZR n) = Ok n.
Proof. intros H. unfold cast_uint. rewrite Rtrunc_IZR. replace ((0 <=? n)%Z && (n <=? uint_max)%Z) with true by lia. reflexivity. Qed.

(** ** The parameters *)
Lemma nodes_odd size r n : nh_nodes size r = Ok n -> exists a, (n = 2 * a + 1 /\ 0 <= a /\ n <= uint_max)%Z.
Proof.
  unfold nh_nodes. destruct (cast_uint _) as [k| | |] eqn:E; try discriminate. apply cast_uint_ok in E as (_ & B). cbn [bind]. intros H. injection H as <-.
  assert (Hm : uint_max = (2 ^ 32 - 1)%Z) by reflexivity. destruct (Z.even k) eqn:Ev.
  - apply Z.even_spec in Ev as (a & ->). exists a. rewrite Z.mod_small by lia. lia.
  - assert (Z.odd k = true) by (rewrite <- Z.negb_even, Ev; reflexivity). apply Z.odd_spec in H as (a & ->). exists a. lia.
Qed.

Lemma half_odd a : Rfloor (IZR (2 * a + 1) / 2) = a.
Proof. apply Rfloor_unique. rewrite plus_IZR, mult_IZR. lra. Qed.

Lemma PI_small : PI <= 4.
Proof. pose proof PI_4. lra. Qed.

(** The shape of a table. *)
Lemma built_spec h : built h -> exists a b, (0 <= a /\ 0 <= b)%Z /\ nh_numx h = (2 * a + 1)%Z /\ nh_numy h = (2 * b + 1)%Z /\ (nh_numx h <= uint_max /\ nh_numy h <= uint_max)%Z /\
  nh_offx h = IZR a * nh_res h /\ nh_offy h = IZR b * nh_res h /\ 2 * PI / nh_ang h <= IZR (nh_numang h) < 2 * PI / nh_ang h + 1 /\ (0 < nh_numang h < 1000000000)%Z.
Proof.
  intros [(lo & up & E) Hr Ha _]. unfold nh_build in E. destruct (nh_nodes (px up - px lo) _) as [nx| | |] eqn:E1; try discriminate. cbn [bind] in E.
  destruct (nh_nodes (py up - py lo) _) as [ny| | |] eqn:E2; try discriminate. cbn [bind] in E. unfold nh_new in E. destruct (cast_uint _) as [na| | |] eqn:E3; try discriminate. cbn [bind] in E.
  apply nodes_odd in E1 as (a & -> & A1 & A2). apply nodes_odd in E2 as (b & -> & B1 & B2). apply cast_uint_ok in E3 as (E3 & C). rewrite Rtrunc_IZR in E3.
  assert (h = NonHol (nh_res h) (nh_ang h) (nh_radius h) (nh_reverse h) (nh_forward h) (nh_switching h) (2 * a + 1) (2 * b + 1) na (IZR a * nh_res h) (IZR b * nh_res h)) as ->.
  { rewrite !half_odd in E. congruence. }
  cbn [nh_res nh_ang nh_numx nh_numy nh_offx nh_offy nh_numang] in *. exists a, b. assert (T : 2 * PI / nh_ang h <= IZR na < 2 * PI / nh_ang h + 1). { pose proof (Rceil_spec (2 * PI / nh_ang h)). rewrite E3. lra. }
  repeat (split; [auto; lra|]). pose proof PI_RGT_0. pose proof PI_small. assert (0 < 2 * PI / nh_ang h) by (apply Rdiv_lt_0_compat; lra).
  assert (2 * PI / nh_ang h <= 800000000). { apply Rmult_le_reg_r with (nh_ang h); [lra|]. unfold Rdiv. rewrite Rmult_assoc, Rinv_l by lra. lra. }
  split; apply lt_IZR; lra.
Qed.

(** ** Indices *)
Lemma index_near x off r : 0 < r -> Rabs x + off <= 1000000000 * r -> 0 <= off -> is_int (Rround ((x + off) / r)).
Proof.
  intros Hr H Ho. pose proof (Rround_near ((x + off) / r)) as [B1 B2]. assert (A : Rabs x <= 1000000000 * r - off) by lra. apply Rabs_between in A.
  assert (Q : (x + off) / r * r = x + off) by (field; lra). set (q := (x + off) / r) in *. assert (-1000000000 <= q <= 1000000000) by nra.
  unfold is_int, int_min, int_max. split; apply le_IZR; cbn; lra.
Qed.

(** Which indices are in the table. *)
Lemma index_in a x off r : (0 <= a)%Z -> 0 < r -> off = IZR a * r -> Rabs x < off + r / 2 -> (0 <= Rround ((x + off) / r) < 2 * a + 1)%Z.
Proof.
  intros Ha Hr -> H. apply Rabs_def2 in H as [H1 H2]. assert (Q : (x + IZR a * r) / r = x / r + IZR a) by (field; lra). rewrite Q. set (q := x / r). assert (Q2 : q * r = x) by (unfold q; field; lra).
  assert (- IZR a - / 2 < q < IZR a + / 2) by nra. pose proof (Rround_near (q + IZR a)) as B. split; [apply Rround_nonneg; lra|].
  assert (IZR (Rround (q + IZR a)) < IZR (2 * a + 1)) by (rewrite plus_IZR, mult_IZR; lra). now apply lt_IZR.
Qed.
Lemma index_out a x off r : (0 <= a)%Z -> 0 < r -> off = IZR a * r -> off + r / 2 < Rabs x -> (Rround ((x + off) / r) < 0 \/ 2 * a + 1 <= Rround ((x + off) / r))%Z.
Proof.
  intros Ha Hr -> H. assert (Q : (x + IZR a * r) / r = x / r + IZR a) by (field; lra). rewrite Q. set (q := x / r). assert (Q2 : q * r = x) by (unfold q; field; lra).
  pose proof (Rround_near (q + IZR a)) as B. destruct (Rle_dec 0 x) as [P|P].
  - right. rewrite Rabs_pos_eq in H by auto. assert (IZR a + / 2 < q) by nra. apply Z.lt_succ_r in Ha || idtac. apply Zlt_succ_le, lt_IZR. rewrite succ_IZR, plus_IZR, mult_IZR. lra.
  - left. rewrite Rabs_left in H by lra. assert (q < - IZR a - / 2) by nra. apply Z.lt_nge. intros K. apply Rround_nonneg in K. lra.
Qed.

Lemma angle_index h delta : built h -> - PI <= pth delta <= PI -> is_int (Rround (pth delta / nh_ang h)) /\ (Rround (pth delta / nh_ang h) <= nh_numang h)%Z.
Proof.
  intros B H. destruct (built_spec h B) as (a & b & _ & _ & _ & _ & _ & _ & (N1 & N2) & N3). destruct B as [_ Br Ba Brad]. pose proof (Rround_near (pth delta / nh_ang h)) as Q. pose proof PI_RGT_0. pose proof PI_small.
  assert (E : pth delta / nh_ang h * nh_ang h = pth delta) by (field; lra). assert (E2 : 2 * PI / nh_ang h * nh_ang h = 2 * PI) by (field; lra). set (q := pth delta / nh_ang h) in *. set (w := 2 * PI / nh_ang h) in *.
  assert (L : - (w / 2) <= q <= w / 2) by nra. assert (1 <= IZR (nh_numang h)) by (apply IZR_le; lia). assert (Hb : IZR (nh_numang h) < 1000000000) by (apply IZR_lt; lia). split.
  - unfold is_int, int_min, int_max. split; apply le_IZR; cbn; lra.
  - destruct (Rle_dec 1 w) as [W|W].
    + apply Zlt_succ_le, lt_IZR. rewrite succ_IZR. lra.
    + assert (H4 : IZR (Rround q) < IZR 2) by lra. apply lt_IZR in H4. lia.
Qed.

(** ** Costs *)
Lemma solver_cost_exists h from to : 0 < nh_radius h -> exists c, solver_cost h from to c.
Proof.
  intros Hr. destruct (optimal_path_spec from to (nh_radius h) (nh_reverse h) (nh_forward h) (nh_switching h) Hr) as (w & g & c & E & _ & _ & _ & _ & Ec & _). exists c, g. split; auto.
Qed.

Lemma length_in_pos d l : Forall proper l -> 0 <= length_in d l.
Proof. induction 1 as [|m l [_ Hm] F IH]; cbn; [lra|]. destruct (dir_eqb _ _); lra. Qed.

Lemma solver_cost_distance h from to c : 0 < nh_radius h -> 0 <= nh_reverse h -> 0 <= nh_forward h -> 0 <= nh_switching h ->
  solver_cost h from to c -> Rmin (nh_reverse h) (nh_forward h) * distance (position from) (position to) <= c.
Proof.
  intros Hr H1 H2 H3 (g & Eg & Ec). destruct (optimal_path_spec from to (nh_radius h) (nh_reverse h) (nh_forward h) (nh_switching h) Hr) as (w & g' & c' & E & _ & O & _).
  assert (g' = g) as -> by congruence. destruct (offered_goal _ _ _ _ _ Hr O) as (l & Hg & Hn & _ & M). destruct (shortest_path_spec from to (nh_radius h) Hr) as (d & g2 & l2 & Ed & _ & _ & _ & _ & Ld).
  specialize (M d Ed). assert (D : distance (position from) (position to) <= g_length g * nh_radius h) by nra.
  assert (Dp : 0 <= distance (position from) (position to)) by apply sqrt_pos. pose proof (Rmin_l (nh_reverse h) (nh_forward h)). pose proof (Rmin_r (nh_reverse h) (nh_forward h)).
  assert (0 <= Rmin (nh_reverse h) (nh_forward h)) by (apply Rmin_glb; auto). set (mu := Rmin _ _) in *. set (rr := nh_radius h) in *.
  assert (X : (nh_reverse h = 1 /\ nh_switching h = 0) \/ nh_forward h = 1 \/ nh_reverse h <> 1 \/ nh_switching h <> 0) by (destruct (Req_dec (nh_reverse h) 1), (Req_dec (nh_switching h) 0); auto).
  destruct X as [(X1 & X2)|X].
  - unfold g_cost in Ec. rewrite X1, X2 in Ec. destruct (valid_motions _); [discriminate|]. replace (Reqb 1 1 && Reqb 0 0)%bool with true in Ec by (symmetry; apply andb_true_iff; split; now apply Reqb_true).
    injection Ec as <-. nra.
  - rewrite (g_cost_spec g l _ _ _ _ Hg Hn X) in Ec. injection Ec as <-. destruct Hg as (_ & _ & El & F). rewrite El, (length_split l F) in D. unfold documented_cost. fold rr.
    pose proof (length_in_pos Forward l F) as Pf. pose proof (length_in_pos Backward l F) as Pb. pose proof (pos_INR (switches l)).
    assert (mu * (length_in Forward l * rr) <= nh_forward h * (length_in Forward l * rr)) by (apply Rmult_le_compat_r; nra).
    assert (mu * (length_in Backward l * rr) <= nh_reverse h * (length_in Backward l * rr)) by (apply Rmult_le_compat_r; nra).
    assert (0 <= nh_switching h * INR (switches l)) by nra. assert (mu * distance (position from) (position to) <= mu * ((length_in Forward l + length_in Backward l) * rr)) by (apply Rmult_le_compat_l; auto).
    lra.
Qed.

(** ** The value *)
Lemma delta_norm goal state : pnorm (position (pose_sub goal state)) = distance (position state) (position goal).
Proof.
  destruct (sub_fields goal state) as (Ex & Ey & _). unfold pnorm, distance, position. cbn [fst snd]. rewrite Ex, Ey. f_equal. pose proof (sincos (pth state)) as SC.
  set (c := cos (pth state)) in *. set (s := sin (pth state)) in *.
  transitivity ((s * s + c * c) * ((px goal - px state) * (px goal - px state) + (py goal - py state) * (py goal - py state))); [ring|rewrite SC; ring].
Qed.

Lemma delta_heading goal state : - PI <= pth (pose_sub goal state) <= PI.
Proof. destruct (sub_fields goal state) as (_ & _ & ->). apply wrap_range. Qed.

Lemma value_beyond h goal state : built h -> near h goal state -> beyond h (pose_sub goal state) ->
  nh_value h goal state = Ok (Some (Rmin (nh_reverse h) (nh_forward h) * distance (position state) (position goal))).
Proof.
  intros B (N1 & N2) By. destruct (built_spec h B) as (a & b & (Ha & Hb) & Nx & Ny & (Ux & Uy) & Ox & Oy & _ & _). pose proof (angle_index h _ B (delta_heading goal state)) as (K & _). destruct B as [_ Br Ba Brad].
  unfold nh_value. rewrite delta_norm. set (d := pose_sub goal state) in *. assert (0 <= nh_offx h) by (rewrite Ox; apply Rmult_le_pos; [now apply IZR_le|lra]). assert (0 <= nh_offy h) by (rewrite Oy; apply Rmult_le_pos; [now apply IZR_le|lra]).
  assert (Ix := index_near _ _ _ Br N1 H). assert (Iy := index_near _ _ _ Br N2 H0). rewrite !cast_IZR by auto. cbn [bind].
  match goal with |- (if ?x then _ else _) = _ => assert (x = true) as -> end; [|reflexivity].
  assert (Hm : uint_max = (2 ^ 32 - 1)%Z) by reflexivity. unfold is_int, int_min, int_max in *.
  destruct By as [By|By]; [destruct (index_out a _ _ _ Ha Br Ox By) as [Q|Q]|destruct (index_out b _ _ _ Hb Br Oy By) as [Q|Q]];
    set (i := Rround ((px d + _) / _)) in *; set (j := Rround ((py d + _) / _)) in *; rewrite Nx, Ny.
  - replace (i <? 0)%Z with true by lia. reflexivity.
  - destruct (i <? 0)%Z eqn:E; [reflexivity|]. rewrite (Z.mod_small i) by lia. replace (i >=? 2 * a + 1)%Z with true by lia. reflexivity.
  - replace (j <? 0)%Z with true by lia. now rewrite orb_true_r.
  - destruct (j <? 0)%Z eqn:E; [now rewrite orb_true_r|]. rewrite (Z.mod_small j) by lia. replace (j >=? 2 * b + 1)%Z with true by lia. now rewrite orb_true_r.
Qed.

(** The read, for indices in the table. *)
Lemma value_table h goal state : built h -> near h goal state -> 
  let d := pose_sub goal state in let i := Rround ((px d + nh_offx h) / nh_res h) in let j := Rround ((py d + nh_offy h) / nh_res h) in let k := Rround (pth d / nh_ang h) in
  ((0 <= i < nh_numx h)%Z /\ (0 <= j < nh_numy h)%Z /\ nh_value h goal state = if (0 <=? k)%Z then nh_entry h i j (if (k =? nh_numang h)%Z then 0%Z else k) else UB) \/
  ((i < 0 \/ nh_numx h <= i \/ j < 0 \/ nh_numy h <= j)%Z /\ nh_value h goal state = Ok (Some (Rmin (nh_reverse h) (nh_forward h) * distance (position state) (position goal)))).
Proof.
  intros B (N1 & N2). cbv zeta. destruct (built_spec h B) as (a & b & (Ha & Hb) & Nx & Ny & (Ux & Uy) & Ox & Oy & _ & Na). pose proof (angle_index h _ B (delta_heading goal state)) as (K & Kn). destruct B as [_ Br Ba Brad].
  unfold nh_value. rewrite delta_norm. set (d := pose_sub goal state) in *. assert (P1 : 0 <= nh_offx h) by (rewrite Ox; apply Rmult_le_pos; [now apply IZR_le|lra]). assert (P2 : 0 <= nh_offy h) by (rewrite Oy; apply Rmult_le_pos; [now apply IZR_le|lra]).
  assert (Ix := index_near _ _ _ Br N1 P1). assert (Iy := index_near _ _ _ Br N2 P2). rewrite !cast_IZR by auto. cbn [bind].
  set (i := Rround ((px d + _) / _)) in *; set (j := Rround ((py d + _) / _)) in *. set (k := Rround (pth d / nh_ang h)) in *.
  assert (Hm : uint_max = (2 ^ 32 - 1)%Z) by reflexivity. unfold is_int, int_min, int_max in *. clearbody i j k.
  destruct (Z_lt_dec i 0) as [I1|I1]; [right; split; [auto|]; replace (i <? 0)%Z with true by lia; reflexivity|]. rewrite (Z.mod_small i) by lia.
  destruct (Z_le_dec (nh_numx h) i) as [I2|I2]; [right; split; [auto|]; replace (i >=? nh_numx h)%Z with true by lia; now rewrite orb_true_r|].
  destruct (Z_lt_dec j 0) as [J1|J1]; [right; split; [auto|]; replace (j <? 0)%Z with true by lia; now rewrite orb_true_r|]. rewrite (Z.mod_small j) by lia.
  destruct (Z_le_dec (nh_numy h) j) as [J2|J2]; [right; split; [auto|]; replace (j >=? nh_numy h)%Z with true by lia; now rewrite orb_true_r|].
  left. split; [lia|]. split; [lia|]. replace ((i <? 0) || (i >=? nh_numx h) || (j <? 0) || (j >=? nh_numy h))%Z with false by lia. unfold nh_read.
  replace ((0 <=? i) && (i <? nh_numx h) && (0 <=? j) && (j <? nh_numy h))%Z with true by lia. cbn [andb].
  destruct (Z_le_dec 0 k) as [K1|K1].
  - rewrite (Z.mod_small k) by lia. replace (0 <=? k)%Z with true by lia. destruct (Z.eqb_spec k (nh_numang h)) as [Ek|Ek].
    + replace ((0 <=? 0) && (0 <? nh_numang h))%Z with true by lia. reflexivity.
    + replace ((0 <=? k) && (k <? nh_numang h))%Z with true by lia. reflexivity.
  - replace (0 <=? k)%Z with false by lia. assert ((k mod 2 ^ 32 =? nh_numang h)%Z = false) as -> by lia. replace (0 <=? k)%Z with false by lia. reflexivity.
Qed.

Lemma in_bounds h goal state : built h -> near h goal state -> - nh_ang h / 2 < pth (pose_sub goal state) ->
  exists v, nh_value h goal state = Ok (Some v) /\
    ((exists node, nearest h node (pose_sub goal state) /\ solver_cost h node (mk_pose 0 0 0) v) \/ v = Rmin (nh_reverse h) (nh_forward h) * distance (position state) (position goal)).
Proof.
  intros B N Ht. pose proof (value_table h goal state B N) as T. cbv zeta in T. destruct (built_spec h B) as (a & b & _ & _ & _ & _ & _ & _ & (A1 & A2) & A3). pose proof (delta_heading goal state) as Hd.
  pose proof (angle_index h _ B Hd) as (_ & Kn). destruct B as [_ Br Ba Brad]. set (d := pose_sub goal state) in *.
  destruct T as [(Hi & Hj & ->)|(_ & ->)]; [|eauto].
  assert (K0 : (0 <= Rround (pth d / nh_ang h))%Z). { apply Rround_nonneg. apply Rmult_lt_reg_r with (nh_ang h); [lra|]. unfold Rdiv at 1. rewrite Rmult_assoc, Rinv_l by lra. lra. }
  replace (0 <=? Rround (pth d / nh_ang h))%Z with true by lia. set (k := (if (_ =? _)%Z then _ else _)).
  set (i := Rround ((px d + _) / _)) in *; set (j := Rround ((py d + _) / _)) in *. 
  destruct (solver_cost_exists h (nh_node h i j k) (mk_pose 0 0 0) Brad) as (c & Sc). exists c. split.
  { unfold nh_entry. destruct Sc as (g & -> & Ec). cbn [bind]. now rewrite Ec. }
  left. exists (nh_node h i j k). split; auto. unfold nearest, nh_node, mk_pose. cbn [px py pth].
  assert (G : forall x off, Rabs (IZR (Rround ((x + off) / nh_res h)) * nh_res h - off - x) <= nh_res h / 2).
  { intros x off. pose proof (Rround_near ((x + off) / nh_res h)) as Q. assert (E : (x + off) / nh_res h * nh_res h = x + off) by (field; lra). set (q := (x + off) / nh_res h) in *. apply Rabs_between. nra. }
  split; [apply G|]. split; [apply G|]. exists (IZR k * nh_ang h). split; [apply wrap_same|]. pose proof (Rround_near (pth d / nh_ang h)) as Q. assert (E : pth d / nh_ang h * nh_ang h = pth d) by (field; lra).
  unfold k. destruct (Z.eqb_spec (Rround (pth d / nh_ang h)) (nh_numang h)) as [Ek|Ek].
  - rewrite Ek in Q. assert (E2 : 2 * PI / nh_ang h * nh_ang h = 2 * PI) by (field; lra). set (q := pth d / nh_ang h) in *. set (w := 2 * PI / nh_ang h) in *. pose proof PI_RGT_0. apply Rabs_between.
    assert (q <= w / 2) by nra. assert (w <= 1) by lra. nra.
  - set (q := pth d / nh_ang h) in *. apply Rabs_between. nra.
Qed.

Lemma out_of_bounds h goal state : built h -> near h goal state -> within h (pose_sub goal state) -> pth (pose_sub goal state) <= - nh_ang h / 2 -> nh_value h goal state = UB.
Proof.
  intros B N (W1 & W2) Ht. pose proof (value_table h goal state B N) as T. cbv zeta in T. destruct (built_spec h B) as (a & b & (Ha & Hb) & Nx & Ny & _ & Ox & Oy & _ & _). destruct B as [_ Br Ba Brad].
  pose proof (index_in a _ _ _ Ha Br Ox W1) as I1. pose proof (index_in b _ _ _ Hb Br Oy W2) as I2. set (d := pose_sub goal state) in *.
  destruct T as [(_ & _ & ->)|([K|[K|[K|K]]] & _)]; try lia. destruct (Z.leb_spec 0 (Rround (pth d / nh_ang h))) as [K|K]; [|reflexivity]. exfalso. apply Rround_nonneg in K.
  assert (E : pth d / nh_ang h * nh_ang h = pth d) by (field; lra). set (q := pth d / nh_ang h) in *. nra.
Qed.

(** ** Driving back *)
Lemma sin_le_x x : 0 <= x -> sin x <= x.
Proof. intros [H| <-]; [pose proof (sin_lt_x x H); lra|rewrite sin_0; lra]. Qed.

(** The change of the sine over an arc. *)
Lemma sin_arc a s : 0 <= s -> s <= PI -> sin (a + s) - sin a <= s /\ (- PI / 2 <= a -> a + s <= PI / 2 -> 0 <= sin (a + s) - sin a).
Proof.
  intros H0 H1. rewrite form4. replace ((a + s - a) / 2) with (s / 2) by field. replace ((a + s + a) / 2) with (a + s / 2) by field.
  pose proof PI_RGT_0. assert (0 <= sin (s / 2)) by (apply sin_ge_0; lra). pose proof (sin_le_x (s / 2) ltac:(lra)). pose proof (COS_bound (a + s / 2)) as [C1 C2]. split; [nra|].
  intros H5 H6. assert (0 <= cos (a + s / 2)) by (apply cos_ge_0; lra). nra.
Qed.

Lemma drive_back r : 0 < r -> forall l p, Forall proper l -> Rabs (pth p) + motions_length l <= PI / 2 -> px p - r * length_in Backward l <= px (drive r l p).
Proof.
  intros Hr. induction l as [|m l IH]; intros p F H; [cbn; lra|]. inversion F as [|? ? [Hd Hm] F']; subst. rewrite drive_cons. cbn [motions_length length_in] in *.
  pose proof (length_pos l F') as Lp. pose proof PI_RGT_0 as HP. pose proof (Rabs_pos (pth p)) as Ap. assert (A : Rabs (pth p) <= PI / 2 - m_len m) by lra. apply Rabs_between in A.
  set (p' := driven r (m_steer m) p (signed (m_dir m) (m_len m))).
  assert (G : Rabs (pth p') <= Rabs (pth p) + m_len m /\ px p - r * (if dir_eqb (m_dir m) Backward then m_len m else 0) <= px p').
  { assert (Hc : 0 <= cos (pth p) <= 1). { split; [apply cos_ge_0; lra|apply COS_bound]. }
    assert (T : forall a b, Rabs b <= m_len m -> Rabs (a + b) <= Rabs a + m_len m). { intros a b Hb. pose proof (Rabs_triang a b). lra. }
    assert (Q1 : Rabs (m_len m) <= m_len m) by (rewrite Rabs_pos_eq; lra). assert (Q2 : Rabs (- m_len m) <= m_len m) by (rewrite Rabs_Ropp; auto).
    unfold p', driven. destruct (m_steer m), (m_dir m); try easy; cbn [signed dir_eqb px py pth].
    - split; [apply T; auto|]. destruct (sin_arc (pth p) (m_len m) Hm) as [_ S]; [lra|]. specialize (S ltac:(lra) ltac:(lra)). nra.
    - split; [apply T; auto|]. destruct (sin_arc (pth p + - m_len m) (m_len m) Hm) as [S _]; [lra|]. replace (pth p + - m_len m + m_len m) with (pth p) in S by ring. nra.
    - split; [lra|]. assert (0 <= r * m_len m * cos (pth p)) by (apply Rmult_le_pos; nra). lra.
    - split; [lra|]. assert (r * m_len m * cos (pth p) <= r * m_len m * 1) by (apply Rmult_le_compat_l; nra). lra.
    - split; [apply T; auto|]. destruct (sin_arc (pth p - m_len m) (m_len m) Hm) as [_ S]; [lra|]. replace (pth p - m_len m + m_len m) with (pth p) in S by ring. specialize (S ltac:(lra) ltac:(lra)). nra.
    - split; [apply (T (pth p) (- - m_len m)); rewrite Ropp_involutive; auto|]. destruct (sin_arc (pth p) (m_len m) Hm) as [S _]; [lra|]. replace (pth p - - m_len m) with (pth p + m_len m) by ring. nra. }
  destruct G as [G1 G2]. specialize (IH p' F' ltac:(lra)). assert (r * ((if dir_eqb (m_dir m) Backward then m_len m else 0) + length_in Backward l) = r * (if dir_eqb (m_dir m) Backward then m_len m else 0) + r * length_in Backward l) by ring. lra.
Qed.

(** Driving straight ahead. *)
Lemma ahead_cost h start s c : 0 < nh_radius h -> 0 <= s -> nh_forward h = 1 \/ nh_reverse h <> 1 \/ nh_switching h <> 0 ->
  solver_cost h start (driven (nh_radius h) SStraight start s) c -> c <= nh_forward h * (nh_radius h * s).
Proof.
  intros Hr Hs Hf (g & Eg & Ec). destruct (optimal_path_spec start (driven (nh_radius h) SStraight start s) (nh_radius h) (nh_reverse h) (nh_forward h) (nh_switching h) Hr) as (w & g' & c' & E & _ & _ & _ & _ & Ec' & M).
  assert (g' = g) as -> by congruence. unfold rs_cost, rs_new in Ec'. cbn [q_segment q_radius] in Ec'. assert (c' = c) as -> by congruence.
  assert (F : Forall proper [Lf 0; Sf s; Lf 0]) by (repeat (constructor; [split; cbn; [easy|lra]|]); constructor).
  destruct (add_motions_holds [Lf 0; Sf s; Lf 0] g_new [] g_new_holds F) as (a & Ea & Ha). { unfold num_motion. cbn [length]. lia. }
  destruct (M 0%nat a) as (c2 & Ec2 & L). { exists 0, s, 0, s. split; [now apply ahead_applies|]. unfold get_path. change (Nat.div 0 4) with 0%nat. change (Nat.modulo 0 4) with 0%nat. cbn [base_motions]. rewrite Ea. reflexivity. }
  rewrite (g_cost_spec a ([] ++ [Lf 0; Sf s; Lf 0]) _ _ _ _ Ha) in Ec2; [|easy|auto]. injection Ec2 as <-. unfold documented_cost in L. cbn in L. lra.
Qed.

(** ** A table *)
Definition demo (radius reverse forward : R) : nonhol := NonHol 1 (PI / 2) radius reverse forward 0 21 21 4 10 10.
Lemma demo_built radius reverse forward : 0 < radius -> built (demo radius reverse forward).
Proof.
  intros Hr. pose proof PI_gt_1. split; cbn [demo nh_res nh_ang nh_radius nh_reverse nh_forward nh_switching]; try lra.
  exists (Pose (-10) (-10) 0), (Pose 10 10 0). unfold nh_build, nh_nodes. cbn [px py]. replace ((10 - -10) / 1) with (IZR 20) by field. rewrite Rceil_IZR, cast_uint_IZR by (unfold uint_max; lia). cbn [bind].
  change (if Z.even 20 then (20 + 1) mod 2 ^ 32 else 20)%Z with 21%Z. unfold nh_new. replace (2 * PI / (PI / 2)) with (IZR 4) by (field; lra). rewrite Rceil_IZR, cast_uint_IZR by (unfold uint_max; lia). cbn [bind].
  assert (Rfloor (21 / 2) = 10%Z) as -> by (apply Rfloor_unique; lra). unfold demo. do 2 f_equal; ring.
Qed.

Lemma zero_delta x : pose_sub (Pose x 0 0) zero_pose = Pose x 0 0.
Proof.
  destruct (sub_fields (Pose x 0 0) zero_pose) as (E1 & E2 & E3). destruct (pose_sub _ _) as [a b c]. cbn in *. rewrite E1, E2, E3, cos_0, sin_0. pose proof PI_RGT_0. rewrite wrap_keep by lra. f_equal; ring.
Qed.

Lemma demo_value radius reverse forward x i : 0 < radius -> -10 <= x <= 10 -> Rround (x + 10) = i -> exists v,
  nh_value (demo radius reverse forward) (Pose x 0 0) zero_pose = Ok (Some v) /\ solver_cost (demo radius reverse forward) (Pose (IZR i - 10) 0 0) (mk_pose 0 0 0) v.
Proof.
  intros Hr Hx Hi. assert (B := demo_built radius reverse forward Hr). pose proof PI_gt_1 as HP.
  assert (N : near (demo radius reverse forward) (Pose x 0 0) zero_pose).
  { unfold near. rewrite zero_delta. cbn. rewrite Rabs_R0. split; [|lra]. assert (Rabs x <= 10) by (apply Rabs_between; lra). lra. }
  pose proof (value_table _ _ _ B N) as T. cbv zeta in T. rewrite zero_delta in T. cbn [px py pth demo nh_offx nh_offy nh_res nh_ang nh_numx nh_numy nh_numang] in T.
  replace ((x + 10) / 1) with (x + 10) in T by field. rewrite Hi in T. replace ((0 + 10) / 1) with (IZR 10) in T by field. replace (0 / (PI / 2)) with (IZR 0) in T by (field; lra). rewrite !Rround_IZR in T.
  change (0 <=? 0)%Z with true in T. change (if (0 =? 4)%Z then 0%Z else 0%Z) with 0%Z in T. cbv iota in T.
  assert (Bi : (0 <= i < 21)%Z). { pose proof (Rround_near (x + 10)) as Q. rewrite Hi in Q. split; [apply Zlt_succ_le, lt_IZR; rewrite succ_IZR; lra|apply lt_IZR; lra]. }
  destruct T as [(_ & _ & T)|([K|[K|[K|K]]] & _)]; try lia. 
  destruct (solver_cost_exists (demo radius reverse forward) (Pose (IZR i - 10) 0 0) (mk_pose 0 0 0) Hr) as (v & Sv). exists v. split; auto. fold (demo radius reverse forward) in T. rewrite T. unfold nh_entry.
  assert (En : nh_node (demo radius reverse forward) i 10 0 = Pose (IZR i - 10) 0 0). { unfold nh_node, mk_pose. cbn [demo nh_offx nh_offy nh_res nh_ang]. rewrite Rmult_0_l, wrap_keep by lra. f_equal; ring. }
  rewrite En. destruct Sv as (g & -> & Ec). cbn [bind]. now rewrite Ec.
Qed.

Lemma ahead_pose r x : 0 < r -> driven r SStraight zero_pose (x / r) = Pose x 0 0.
Proof. intros Hr. unfold driven, zero_pose. cbn [px py pth]. rewrite cos_0, sin_0. f_equal; field; lra. Qed.

Lemma rounding_overestimates : exists h goal state v c, built h /\ nh_reverse h = 1 /\ nh_forward h = 1 /\ nh_switching h = 0 /\
  nh_value h goal state = Ok (Some v) /\ solver_cost h state goal c /\ c < v.
Proof.
  assert (Hi : Rround (0.6 + 10) = 11%Z). { unfold Rround. destruct (Rle_dec 0 (0.6 + 10)); [|lra]. apply Rfloor_unique. lra. }
  destruct (demo_value 1 1 1 0.6 11 ltac:(lra) ltac:(lra) Hi) as (v & Ev & Sv). destruct (solver_cost_exists (demo 1 1 1) zero_pose (Pose 0.6 0 0)) as (c & Sc); [cbn; lra|].
  exists (demo 1 1 1), (Pose 0.6 0 0), zero_pose, v, c. split; [apply demo_built; lra|]. repeat (split; [reflexivity || auto|]).
  assert (C : c <= 1 * 0.6). { replace (1 * 0.6) with (nh_forward (demo 1 1 1) * (nh_radius (demo 1 1 1) * 0.6)) by (cbn; ring). apply (ahead_cost (demo 1 1 1) zero_pose 0.6 c); cbn [demo nh_radius nh_forward]; try lra; auto. replace 0.6 with (0.6 / 1) at 1 by field. rewrite ahead_pose by lra. exact Sc. }
  pose proof (solver_cost_distance (demo 1 1 1) _ _ _ ltac:(cbn; lra) ltac:(cbn; lra) ltac:(cbn; lra) ltac:(cbn; lra) Sv) as D. cbn [demo nh_reverse nh_forward] in D. rewrite Rmin_left in D by lra.
  unfold distance, position, mk_pose in D. cbn [px py fst snd] in D. replace ((0 - (11 - 10)) * (0 - (11 - 10)) + (0 - 0) * (0 - 0)) with (1 * 1) in D by ring. rewrite sqrt_square in D by lra. lra.
Qed.

Lemma multipliers_swapped : exists h goal state v c, built h /\ nh_node h 15 10 0 = pose_sub goal state /\
  nh_value h goal state = Ok (Some v) /\ solver_cost h state goal c /\ c <= 5 /\ 15 <= v.
Proof.
  assert (Hi : Rround (5 + 10) = 15%Z). { replace (5 + 10) with (IZR 15) by ring. apply Rround_IZR. }
  destruct (demo_value 100 3 1 5 15 ltac:(lra) ltac:(lra) Hi) as (v & Ev & Sv). destruct (solver_cost_exists (demo 100 3 1) zero_pose (Pose 5 0 0)) as (c & Sc); [cbn; lra|].
  exists (demo 100 3 1), (Pose 5 0 0), zero_pose, v, c. pose proof PI_RGT_0 as HP. split; [apply demo_built; lra|]. split.
  { rewrite zero_delta. unfold nh_node, mk_pose. cbn [demo nh_offx nh_offy nh_res nh_ang]. rewrite Rmult_0_l, wrap_keep by lra. f_equal; ring. }
  split; auto. split; auto. split.
  { assert (C : c <= 100 * (5 / 100)). { replace (100 * (5 / 100)) with (nh_forward (demo 100 3 1) * (nh_radius (demo 100 3 1) * (5 / 100))) by (cbn; ring). apply (ahead_cost (demo 100 3 1) zero_pose (5 / 100) c); cbn [demo nh_radius nh_forward]; try lra; auto. rewrite ahead_pose by lra. exact Sc. } lra. }
  destruct Sv as (g & Eg & Ec). cbn [demo nh_radius nh_reverse nh_forward nh_switching] in *.
  destruct (optimal_path_spec (Pose (15 - 10) 0 0) (mk_pose 0 0 0) 100 3 1 0 ltac:(lra)) as (w & g' & c' & E & _ & O & _ & _ & _). assert (g' = g) as -> by congruence.
  assert (H100 : 0 < 100) by lra. destruct O as (t & u & x & len & A & Ep). destruct (word_goal _ _ _ _ _ _ _ _ H100 A) as (g2 & l & Eg2 & Hg & Hn & _ & (Gx & _ & _) & _). assert (g2 = g) as -> by congruence.
  rewrite (g_cost_spec g l _ _ _ _ Hg Hn) in Ec by auto. injection Ec as <-. destruct Hg as (_ & _ & _ & F). unfold documented_cost.
  pose proof (length_in_pos Forward l F). pose proof (length_in_pos Backward l F). pose proof (length_split l F) as L.
  destruct (Rle_dec (motions_length l) (PI / 2)) as [S|S].
  - pose proof (drive_back 100 ltac:(lra) l (Pose (15 - 10) 0 0) F) as D. cbn [px pth] in D. rewrite Rabs_R0 in D. specialize (D ltac:(lra)). rewrite Gx in D. unfold mk_pose in D. cbn [px] in D. lra.
  - pose proof PI_gt_1. lra.
Qed.
