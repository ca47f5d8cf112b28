(** How close the reported distances are to the true ones. *)
From Coq Require Import Reals Lra.
From Verif Require Import Base Grid_model Grid_spec Grid_proofs Gvd_model Gvd_spec Gvd_proofs.
From Coq Require Import ZifyBool ZifyNat ZifyN.
Open Scope Z_scope.

Local Open Scope R_scope.
(** Length of the shortest path from a cell to another by moves between touching cells. *)
Definition octile (a b : cell) : R :=
  let dr := Z.abs (row a - row b) in
  let dc := Z.abs (col a - col b) in
  sqrt 2 * IZR (Z.min dr dc) + IZR (Z.max dr dc - Z.min dr dc).

Definition euclid (a b : cell) : R := sqrt (IZR (sqd a b)).

Local Close Scope R_scope.

Section Opt.
Variables R C : Z.
Hypothesis HRC : representable R C.
Variable f : cell -> info.
Hypothesis HJ : J R C f [].
Notation ins := (inside R C).

Lemma obst_dist s : ins s -> valid (f s) -> ins (i_obst (f s)) /\ i_dist (f s) = sqd s (i_obst (f s)).
Proof.
  intros Hs V. pose proof (j_cons R C _ _ HJ s Hs) as K. pose proof (proj1 (cons_valid R C s (f s) K) V) as O.
  destruct K as [(E & _)|]; auto. exfalso. unfold valid in V. rewrite E in V. discriminate V.
Qed.

Lemma is_obst_valid o : ins o -> is_obst f o -> valid (f o).
Proof. intros Ho K. unfold valid. rewrite K. now apply (ins_valid R C). Qed.

Lemma is_obst_dist o : ins o -> is_obst f o -> i_dist (f o) = 0.
Proof. intros Ho K. destruct (obst_dist o Ho (is_obst_valid o Ho K)) as [_ ->]. rewrite K. apply sqd_refl. Qed.

(** ** Exactness *)
Section Exact.
Hypothesis HNS : NS R C f.

Lemma reported_bound s : ins s -> valid (f s) -> exists o, ins o /\ is_obst f o /\ i_dist (f s) = sqd s o /\ i_obst (f s) = o.
Proof.
  intros Hs V. destruct (HNS s Hs V) as [A B]. exists (i_obst (f s)). split; auto. split; auto. split; auto. now apply obst_dist.
Qed.

Lemma region_le o c : ins o -> is_obst f o -> region R C (fun o' => ins o' /\ is_obst f o') o c -> i_dist (f c) <= sqd o c.
Proof.
  intros Ho Hob H. induction H as [|s n Hr IH Hs Hi Hn Ht].
  - rewrite is_obst_dist by auto. apply sqd_nonneg.
  - assert (V : valid (f s)).
    { apply (settled_all R C HRC f HJ); auto. exists o. split; auto. now apply is_obst_valid. }
    destruct (reported_bound s Hi V) as (o' & Ho' & Hob' & Ed & Eo).
    assert (o' = o) as Eoo.
    { destruct (cell_eq_dec o' o) as [|N]; auto. pose proof (Hs o' (conj Ho' Hob') N) as L. rewrite (sqd_sym o s) in IH. lia. }
    destruct (settled_local R C HRC f HJ s n Hi Hn Ht V) as [_ L]. now rewrite Eo, Eoo in L.
Qed.

Lemma reported_smallest c : ins c -> (exists o, ins o /\ is_obst f o /\ (forall o', ins o' -> is_obst f o' -> sqd c o <= sqd c o') /\
    i_dist (f c) <= sqd o c) ->
  smallest R C (is_obst f) c (i_dist (f c)).
Proof.
  intros Hc (o & Ho & Hob & Hmin & Hle). rewrite sqd_sym in Hle.
  assert (V : valid (f c)).
  { apply (settled_all R C HRC f HJ); auto. exists o. split; auto. now apply is_obst_valid. }
  destruct (reported_bound c Hc V) as (o' & Ho' & Hob' & Ed & _). split; [exists o'; auto|].
  intros o1 H1 H2. specialize (Hmin o1 H1 H2). lia.
Qed.

(** With two obstacles the cells that are at least as close to one of them form a region around it. *)
Definition gap (a b x : cell) : Z := sqd x b - sqd x a.

Lemma gap_move a b x dr dc :
  gap a b (Cell (row x + dr) (col x + dc)) = gap a b x + 2 * (dr * (row a - row b) + dc * (col a - col b)).
Proof. unfold gap, sqd. cbn [row col]. ring. Qed.

Lemma toward_inside a c dr dc : ins a -> ins c -> (dr = Z.sgn (row a - row c) \/ dr = 0) -> (dc = Z.sgn (col a - col c) \/ dc = 0) ->
  ins (Cell (row c + dr) (col c + dc)).
Proof. unfold inside. cbn. intros. lia. Qed.

Lemma sgn_abs x : Z.sgn x * Z.abs x = x.
Proof. lia. Qed.

Lemma pred_exists a b c : ins a -> ins c -> a <> b -> c <> a -> 0 <= gap a b c ->
  exists p, ins p /\ touches p c /\ 0 < gap a b p /\
    Z.max (Z.abs (row a - row p)) (Z.abs (col a - col p)) < Z.max (Z.abs (row a - row c)) (Z.abs (col a - col c)).
Proof.
  intros Ha Hc Hab Hca Hg.
  set (u := row a - row c). set (v := col a - col c). set (wr := row a - row b). set (wc := col a - col b).
  assert (Hga : 0 < gap a b a).
  { unfold gap. rewrite sqd_refl. unfold sqd. fold wr wc. assert (wr <> 0 \/ wc <> 0) as K.
    { unfold wr, wc. destruct a as [ra ca], b as [rb cb]. cbn in *. assert (ra <> rb \/ ca <> cb); [|lia].
      destruct (Z.eq_dec ra rb), (Z.eq_dec ca cb); auto. subst. contradiction. }
    destruct K; nia. }
  assert (Huv : u <> 0 \/ v <> 0).
  { unfold u, v. destruct a as [ra ca], c as [rc cc]. cbn in *. destruct (Z.eq_dec ra rc), (Z.eq_dec ca cc); subst; try lia. contradiction. }
  assert (Htot : gap a b a = gap a b c + 2 * (u * wr + v * wc)).
  { rewrite <- gap_move. f_equal. unfold u, v. destruct a, c. cbn. f_equal; lia. }
  (* the candidate moves *)
  assert (Hmove : forall dr dc, (dr = Z.sgn u \/ dr = 0) -> (dc = Z.sgn v \/ dc = 0) ->
    (Z.abs v <= Z.abs u -> dr = Z.sgn u /\ u <> 0 /\ (dc = 0 -> Z.abs v < Z.abs u)) ->
    (Z.abs u <= Z.abs v -> dc = Z.sgn v /\ v <> 0 /\ (dr = 0 -> Z.abs u < Z.abs v)) ->
    0 < gap a b c + 2 * (dr * wr + dc * wc) ->
    exists p, ins p /\ touches p c /\ 0 < gap a b p /\
      Z.max (Z.abs (row a - row p)) (Z.abs (col a - col p)) < Z.max (Z.abs (row a - row c)) (Z.abs (col a - col c))).
  { intros dr dc Hdr Hdc H1 H2 Hpos. exists (Cell (row c + dr) (col c + dc)). split; [|split; [|split]].
    - apply toward_inside with a; auto.
    - unfold touches. cbn. lia.
    - rewrite gap_move. exact Hpos.
    - cbn. fold u v. replace (row a - (row c + dr)) with (u - dr) by (unfold u; lia). replace (col a - (col c + dc)) with (v - dc) by (unfold v; lia). lia. }
  pose proof (sgn_abs u) as Su. pose proof (sgn_abs v) as Sv.
  set (su := Z.sgn u) in *. set (sv := Z.sgn v) in *. set (au := Z.abs u) in *. set (av := Z.abs v) in *.
  assert (Hau : 0 <= au) by apply Z.abs_nonneg. assert (Hav : 0 <= av) by apply Z.abs_nonneg.
  assert (Hu0 : u = 0 <-> au = 0) by lia. assert (Hv0 : v = 0 <-> av = 0) by lia.
  destruct (Z_le_gt_dec av au) as [Hle|Hgt].
  - (* rows dominate *)
    set (gS := su * wr). set (gD := su * wr + sv * wc).
    assert (Hdec : u * wr + v * wc = av * gD + (au - av) * gS).
    { rewrite <- Su at 1. rewrite <- Sv at 1. unfold gD, gS. ring. }
    rewrite Hdec in Htot.
    assert (Hdiag : av <> 0 -> 0 < gap a b c + 2 * gD -> _) by (intros A B; exact (Hmove su sv (or_introl eq_refl) (or_introl eq_refl) ltac:(clear - A Hle Hu0 Hv0 Hav Hau; lia) ltac:(clear - A Hle Hu0 Hv0; lia) B)).
    assert (Hstr : av < au -> 0 < gap a b c + 2 * gS -> _) by (intros A B; refine (Hmove su 0 (or_introl eq_refl) (or_intror eq_refl) _ _ _); [clear - A Hle Hu0 Hv0 Hav Hau; lia|clear - A Hle; lia|rewrite Z.mul_0_l, Z.add_0_r; exact B]).
    clearbody gS gD. clear Hmove Hdec.
    destruct (Z.eq_dec av 0) as [Z0|NZ].
    + apply Hstr; [lia|]. rewrite Z0, Z.mul_0_l, Z.sub_0_r in Htot. destruct (Z_lt_ge_dec 0 gS); [lia|].
      assert (0 <= (au - 1) * (- gS)) by (apply Z.mul_nonneg_nonneg; lia). lia.
    + destruct (Z_lt_ge_dec 0 gD) as [PD|PD]; [apply Hdiag; auto; lia|].
      destruct (Z.eq_dec au av) as [EA|NA].
      * apply Hdiag; auto. rewrite EA, Z.sub_diag, Z.mul_0_l in Htot.
        assert (0 <= (av - 1) * (- gD)) by (apply Z.mul_nonneg_nonneg; lia). lia.
      * destruct (Z_lt_ge_dec 0 gS) as [PS|PS]; [apply Hstr; lia|]. apply Hdiag; auto.
        assert (0 <= (av - 1) * (- gD)) by (apply Z.mul_nonneg_nonneg; lia).
        assert (0 <= (au - av) * (- gS)) by (apply Z.mul_nonneg_nonneg; lia). lia.
  - set (gS := sv * wc). set (gD := su * wr + sv * wc).
    assert (Hdec : u * wr + v * wc = au * gD + (av - au) * gS).
    { rewrite <- Su at 1. rewrite <- Sv at 1. unfold gD, gS. ring. }
    rewrite Hdec in Htot.
    assert (Hdiag : au <> 0 -> 0 < gap a b c + 2 * gD -> _) by (intros A B; exact (Hmove su sv (or_introl eq_refl) (or_introl eq_refl) ltac:(clear - A Hgt; lia) ltac:(clear - A Hgt Hu0 Hv0 Hav Hau; lia) B)).
    assert (Hstr : 0 < gap a b c + 2 * gS -> _) by (intros B; refine (Hmove 0 sv (or_intror eq_refl) (or_introl eq_refl) _ _ _); [clear - Hgt; lia|clear - Hgt Hu0 Hv0 Hav Hau; lia|rewrite Z.mul_0_l, Z.add_0_l; exact B]).
    clearbody gS gD. clear Hmove Hdec.
    destruct (Z.eq_dec au 0) as [Z0|NZ].
    + apply Hstr. rewrite Z0, Z.mul_0_l, Z.sub_0_r in Htot. destruct (Z_lt_ge_dec 0 gS); [lia|].
      assert (0 <= (av - 1) * (- gS)) by (apply Z.mul_nonneg_nonneg; lia). lia.
    + destruct (Z_lt_ge_dec 0 gD) as [PD|PD]; [apply Hdiag; auto; lia|].
      destruct (Z_lt_ge_dec 0 gS) as [PS|PS]; [apply Hstr; lia|]. apply Hdiag; auto.
      assert (0 <= (au - 1) * (- gD)) by (apply Z.mul_nonneg_nonneg; lia).
      assert (0 <= (av - au) * (- gS)) by (apply Z.mul_nonneg_nonneg; lia). lia.
Qed.

Lemma region_two (O : cell -> Prop) a b c : ins a -> ins c -> a <> b -> (forall o, O o -> o = a \/ o = b) ->
  0 <= gap a b c -> region R C O a c.
Proof.
  intros Ha Hc Hab HO. remember (Z.to_nat (Z.max (Z.abs (row a - row c)) (Z.abs (col a - col c)))) as k eqn:Ek. revert c Hc Ek.
  induction k as [k IH] using lt_wf_ind. intros c Hc Ek Hg.
  destruct (cell_eq_dec c a) as [->|N]; [apply region_here|].
  destruct (pred_exists a b c Ha Hc Hab N Hg) as (p & Hp & Ht & Hgp & Hlt).
  apply region_step with p; auto.
  - eapply IH; [|exact Hp|reflexivity|lia]. lia.
  - intros o' Ho' No'. destruct (HO o' Ho') as [|Eo]; [contradiction|]. rewrite Eo. unfold gap in Hgp. lia.
Qed.

Lemma region_one (O : cell -> Prop) a c : ins a -> ins c -> (forall o, O o -> o = a) -> region R C O a c.
Proof.
  intros Ha Hc HO.
  assert (region R C (fun _ => False) a c -> region R C O a c) as K.
  { clear Hc. intros H. induction H; [apply region_here|]. apply region_step with s; auto. intros o' Ho' No'. elim No'. auto. }
  apply K. apply (connected R C (region R C (fun _ => False) a)) with a; auto; [|apply region_here].
  intros s n Hs Hn Ht Hr. apply region_step with s; auto. intros o' [].
Qed.

(** At most two obstacles: the distance is exact. *)
Lemma exact_two a b : ins a -> ins b -> is_obst f a -> is_obst f b -> (forall o, ins o -> is_obst f o -> o = a \/ o = b) ->
  forall c, ins c -> smallest R C (is_obst f) c (i_dist (f c)).
Proof.
  intros Ha Hb Oa Ob Hall c Hc. apply reported_smallest; auto.
  destruct (cell_eq_dec a b) as [->|N].
  - exists b. split; auto. split; auto. split.
    + intros o' H1 H2. destruct (Hall o' H1 H2) as [->| ->]; lia.
    + apply region_le; auto. apply region_one; auto. intros o' [H1 H2]. destruct (Hall o' H1 H2); auto.
  - destruct (Z_le_gt_dec (sqd c a) (sqd c b)) as [L|L].
    + exists a. split; auto. split; auto. split.
      * intros o' H1 H2. destruct (Hall o' H1 H2) as [->| ->]; lia.
      * apply region_le; auto. apply region_two with b; auto; [intros o' [H1 H2]; auto|unfold gap; lia].
    + exists b. split; auto. split; auto. split.
      * intros o' H1 H2. destruct (Hall o' H1 H2) as [->| ->]; lia.
      * apply region_le; auto. apply region_two with a; auto; [intros o' [H1 H2]; destruct (Hall o' H1 H2); auto|unfold gap; lia].
Qed.

(** In general: exact in the connected part of the region of the nearest obstacle. *)
Lemma exact_region o c : ins o -> is_obst f o -> ins c -> (forall o', ins o' -> is_obst f o' -> sqd c o <= sqd c o') ->
  region R C (fun o' => ins o' /\ is_obst f o') o c -> smallest R C (is_obst f) c (i_dist (f c)).
Proof.
  intros Ho Oo Hc Hmin Hr. apply reported_smallest; auto. exists o. split; auto. split; auto. split; auto. now apply region_le.
Qed.
End Exact.

(** ** The error is bounded *)
Local Open Scope R_scope.

Lemma euclid_dist a b : euclid a b = dist_euc (IZR (row a)) (IZR (col a)) (IZR (row b)) (IZR (col b)).
Proof. unfold euclid, dist_euc, sqd, Rsqr. now rewrite plus_IZR, !mult_IZR, !minus_IZR. Qed.

Lemma euclid_triangle a b c : euclid a c <= euclid a b + euclid b c.
Proof. rewrite !euclid_dist. apply triangle. Qed.

Lemma euclid_le_iff d e : (0 <= d)%Z -> (d <= e)%Z -> sqrt (IZR d) <= sqrt (IZR e).
Proof. intros. apply sqrt_le_1; try apply IZR_le; auto; lia. Qed.

Lemma octile_step o c : o <> c -> exists p, touches p c /\ (inside R C o -> inside R C c -> inside R C p) /\
  octile o c = octile o p + euclid p c /\
  (Z.max (Z.abs (row o - row p)) (Z.abs (col o - col p)) < Z.max (Z.abs (row o - row c)) (Z.abs (col o - col c)))%Z.
Proof.
  intros N. set (u := (row o - row c)%Z). set (v := (col o - col c)%Z).
  assert (Huv : (u <> 0 \/ v <> 0)%Z).
  { unfold u, v. destruct o as [ra ca], c as [rc cc]. cbn in *. destruct (Z.eq_dec ra rc), (Z.eq_dec ca cc); subst; try lia. contradiction. }
  exists (Cell (row c + Z.sgn u) (col c + Z.sgn v)). split; [unfold touches; cbn; lia|]. split; [unfold inside; cbn; lia|]. split; [|cbn; lia].
  unfold octile, euclid, sqd. cbn.
  replace (row o - (row c + Z.sgn u))%Z with (u - Z.sgn u)%Z by (unfold u; lia).
  replace (col o - (col c + Z.sgn v))%Z with (v - Z.sgn v)%Z by (unfold v; lia).
  replace (row c + Z.sgn u - row c)%Z with (Z.sgn u) by lia. replace (col c + Z.sgn v - col c)%Z with (Z.sgn v) by lia. fold u v.
  destruct (Z.eq_dec u 0) as [Eu|Nu], (Z.eq_dec v 0) as [Ev|Nv]; [lia| | |].
  - rewrite Eu. cbn. replace (Z.sgn v * Z.sgn v)%Z with 1%Z by lia. rewrite sqrt_1.
    replace (Z.min 0 (Z.abs v)) with 0%Z by lia. replace (Z.min 0 (Z.abs (v - Z.sgn v))) with 0%Z by lia.
    replace (Z.max 0 (Z.abs v) - 0)%Z with (Z.max 0 (Z.abs (v - Z.sgn v)) - 0 + 1)%Z by lia. rewrite plus_IZR. lra.
  - rewrite Ev. cbn. replace (Z.sgn u * Z.sgn u + 0)%Z with 1%Z by lia. rewrite sqrt_1.
    replace (Z.min (Z.abs u) 0) with 0%Z by lia. replace (Z.min (Z.abs (u - Z.sgn u)) 0) with 0%Z by lia.
    replace (Z.max (Z.abs u) 0 - 0)%Z with (Z.max (Z.abs (u - Z.sgn u)) 0 - 0 + 1)%Z by lia. rewrite plus_IZR. lra.
  - replace (Z.sgn u * Z.sgn u + Z.sgn v * Z.sgn v)%Z with 2%Z by lia.
    replace (Z.min (Z.abs u) (Z.abs v)) with (Z.min (Z.abs (u - Z.sgn u)) (Z.abs (v - Z.sgn v)) + 1)%Z by lia.
    replace (Z.max (Z.abs u) (Z.abs v) - (Z.min (Z.abs (u - Z.sgn u)) (Z.abs (v - Z.sgn v)) + 1))%Z
      with (Z.max (Z.abs (u - Z.sgn u)) (Z.abs (v - Z.sgn v)) - Z.min (Z.abs (u - Z.sgn u)) (Z.abs (v - Z.sgn v)))%Z by lia.
    rewrite plus_IZR. lra.
Qed.

Lemma octile_bound o : inside R C o -> is_obst f o -> forall c, inside R C c -> sqrt (IZR (i_dist (f c))) <= octile o c.
Proof.
  intros Ho Oo c. remember (Z.to_nat (Z.max (Z.abs (row o - row c)) (Z.abs (col o - col c)))) as k eqn:Ek. revert c Ek.
  induction k as [k IH] using lt_wf_ind. intros c Ek Hc.
  destruct (cell_eq_dec o c) as [<-|N].
  - rewrite is_obst_dist by auto. rewrite sqrt_0. unfold octile. rewrite !Z.sub_diag. cbn. lra.
  - destruct (octile_step o c N) as (p & Ht & Hp & E & Hlt). specialize (Hp Ho Hc).
    assert (V : valid (f p)).
    { apply (settled_all R C HRC f HJ); auto. exists o. split; auto. now apply is_obst_valid. }
    destruct (settled_local R C HRC f HJ p c Hp Hc Ht V) as [Vc L]. destruct (obst_dist p Hp V) as [_ Ed].
    assert (I1 : sqrt (IZR (i_dist (f p))) <= octile o p) by (eapply IH; [|reflexivity|auto]; lia).
    rewrite E. apply Rle_trans with (euclid (i_obst (f p)) c).
    + unfold euclid. apply euclid_le_iff; auto. pose proof (cons_dist R C HRC c (f c) Hc (j_cons R C _ _ HJ c Hc)). lia.
    + apply Rle_trans with (euclid (i_obst (f p)) p + euclid p c); [apply euclid_triangle|].
      assert (euclid (i_obst (f p)) p = sqrt (IZR (i_dist (f p)))) as -> by (unfold euclid; now rewrite Ed, sqd_sym). lra.
Qed.

Lemma octile_euclid a b : octile a b * octile a b <= (4 - 2 * sqrt 2) * IZR (sqd a b).
Proof.
  unfold octile. set (x := Z.abs (row a - row b)). set (y := Z.abs (col a - col b)).
  assert (E : sqd a b = (Z.min x y * Z.min x y + Z.max x y * Z.max x y)%Z).
  { unfold sqd. rewrite <- (Z.abs_square (row a - row b)), <- (Z.abs_square (col a - col b)). fold x y.
    destruct (Z.max_spec x y) as [(? & ->)|(? & ->)], (Z.min_spec x y) as [(? & ->)|(? & ->)]; nia. }
  rewrite E, plus_IZR, !mult_IZR, minus_IZR. set (m := IZR (Z.min x y)). set (M := IZR (Z.max x y)).
  pose proof (sqrt_sqrt 2 ltac:(lra)) as S2. set (t := sqrt 2) in *.
  assert (0 <= (m - (t - 1) * M) * (m - (t - 1) * M)) by apply Rle_0_sqr.
  replace ((4 - 2 * t) * (m * m + M * M)) with ((t * m + (M - m)) * (t * m + (M - m)) + (m - (t - 1) * M) * (m - (t - 1) * M)
    + (2 - t * t) * (m * m + M * M)) by ring.
  rewrite S2. lra.
Qed.

Lemma error_bound o c : inside R C o -> is_obst f o -> inside R C c ->
  IZR (i_dist (f c)) <= (4 - 2 * sqrt 2) * IZR (sqd c o).
Proof.
  intros Ho Oo Hc. rewrite sqd_sym. eapply Rle_trans; [|apply octile_euclid].
  pose proof (octile_bound o Ho Oo c Hc) as H. pose proof (cons_dist R C HRC c (f c) Hc (j_cons R C _ _ HJ c Hc)) as D.
  assert (0 <= IZR (i_dist (f c))) as D0 by (apply IZR_le; lia).
  rewrite <- (sqrt_sqrt (IZR (i_dist (f c))) D0). pose proof (sqrt_pos (IZR (i_dist (f c)))). apply Rmult_le_compat; auto.
Qed.

Lemma aligned_exact o c : inside R C o -> is_obst f o -> inside R C c ->
  (row o = row c \/ col o = col c \/ Z.abs (row o - row c) = Z.abs (col o - col c)) -> (i_dist (f c) <= sqd c o)%Z.
Proof.
  intros Ho Oo Hc Ha. pose proof (octile_bound o Ho Oo c Hc) as H.
  assert (E : octile o c * octile o c = IZR (sqd c o)).
  { unfold octile. rewrite (sqd_sym c o). unfold sqd. pose proof (sqrt_sqrt 2 ltac:(lra)) as S2. destruct Ha as [Ha|[Ha|Ha]].
    - rewrite Ha, !Z.sub_diag. replace (Z.min (Z.abs 0) (Z.abs (col o - col c))) with 0%Z by lia.
      replace (Z.max (Z.abs 0) (Z.abs (col o - col c)) - 0)%Z with (Z.abs (col o - col c)) by lia.
      rewrite <- (Z.abs_square (col o - col c)). rewrite !plus_IZR, !mult_IZR. ring.
    - rewrite Ha, !Z.sub_diag. replace (Z.min (Z.abs (row o - row c)) (Z.abs 0)) with 0%Z by lia.
      replace (Z.max (Z.abs (row o - row c)) (Z.abs 0) - 0)%Z with (Z.abs (row o - row c)) by lia.
      rewrite <- (Z.abs_square (row o - row c)). rewrite !plus_IZR, !mult_IZR. ring.
    - rewrite <- (Z.abs_square (row o - row c)), <- (Z.abs_square (col o - col c)), Ha. rewrite Z.min_id, Z.max_id, Z.sub_diag.
      rewrite plus_IZR, !mult_IZR. transitivity ((sqrt 2 * sqrt 2) * (IZR (Z.abs (col o - col c)) * IZR (Z.abs (col o - col c)))); [ring|]. rewrite S2. ring. }
  pose proof (cons_dist R C HRC c (f c) Hc (j_cons R C _ _ HJ c Hc)) as D.
  assert (0 <= IZR (i_dist (f c))) as D0 by (apply IZR_le; lia).
  apply le_IZR. rewrite <- E, <- (sqrt_sqrt (IZR (i_dist (f c))) D0). pose proof (sqrt_pos (IZR (i_dist (f c)))). apply Rmult_le_compat; auto.
Qed.

End Opt.
