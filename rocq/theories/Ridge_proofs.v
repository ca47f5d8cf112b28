(** Which cells are edges of the Voronoi diagram. *)
From Coq Require Import Reals Lra.
From Verif Require Import Base Grid_model Grid_spec Grid_proofs Gvd_model Gvd_spec Gvd_proofs Gvd_opt_proofs Gvd_api_proofs Ridge_spec.
From Coq Require Import ZifyBool ZifyNat ZifyN.
Open Scope Z_scope.

Section Ridge.
Variables R C : Z.
Hypothesis HRC : representable R C.
Variable number : cell -> Z.
Notation ins := (inside R C).

Lemma holds_unique m f q f' q' : holds R C m f q -> holds R C m f' q' -> (forall c, ins c -> f' c = f c) /\ q' = q.
Proof.
  intros (_ & _ & _ & A & B) (_ & _ & _ & A' & B'). split; [|congruence]. intros c Hc. specialize (A c Hc). specialize (A' c Hc). congruence.
Qed.

Lemma touches_sym a b : touches a b -> touches b a.
Proof. unfold touches. lia. Qed.

Lemma far_sym a b : far a b -> far b a.
Proof. unfold far. lia. Qed.

(** The border that [CheckVoro] sees between two cells. *)
Definition seen (f : cell -> info) (s n : cell) : Prop :=
  valid (f s) /\ valid (f n) /\ number (i_obst (f s)) <> number (i_obst (f n)) /\ border s n (i_obst (f s)) (i_obst (f n)).

(** Between processed cells, every border is an edge. *)
Definition Comp (f : cell -> info) (v : option dmap) : Prop :=
  forall s n, ins s -> ins n -> touches s n -> i_proc (f s) = false -> i_proc (f n) = false -> seen f s n -> vedge v s.

(** An edge has a border with an obstacle. *)
Definition witness (f : cell -> info) (s : cell) : Prop :=
  exists n b, ins n /\ touches s n /\ ins b /\ is_obst f b /\ number (i_obst (f s)) <> number b /\ border s n (i_obst (f s)) b.
Definition Sound (f : cell -> info) (v : option dmap) : Prop :=
  forall s, ins s -> vedge v s -> (exists o, ins o /\ is_obst f o) /\ (i_proc (f s) = false -> witness f s).

(** Cells to be processed wait in the queue or have no obstacle. *)
Definition Pi (f : cell -> info) (q : list cell) : Prop :=
  forall c, ins c -> i_proc (f c) = true -> In c q \/ ~ valid (f c).

Record K (clean : Prop) (f : cell -> info) (q : list cell) (v : option dmap) : Prop := {
  k_pi : Pi f q; k_comp : Comp f v; k_sound : clean -> Sound f v }.

Lemma witness_mono f f' s : f' s = f s -> (forall c, ins c -> is_obst f c -> is_obst f' c) -> witness f s -> witness f' s.
Proof.
  intros E H (n & b & A & B & D & F & G & I). exists n, b. rewrite E. auto 10.
Qed.

(** Cells that change are to be processed. *)
Lemma K_change clean f f' q q' v : K clean f q v -> (forall c, ins c -> i_proc (f' c) = false -> f' c = f c) ->
  Pi f' q' -> (clean -> forall c, ins c -> is_obst f c -> is_obst f' c) -> K clean f' q' v.
Proof.
  intros [HP HC HS] Hch HP' Hob. constructor; auto.
  - intros s n Hs Hn Ht Ps Pn. unfold seen. rewrite (Hch s Hs Ps), (Hch n Hn Pn). rewrite (Hch s Hs Ps) in Ps. rewrite (Hch n Hn Pn) in Pn.
    intros B. now apply (HC s n).
  - intros Kc s Hs Ve. destruct (HS Kc s Hs Ve) as [(o & O1 & O2) W]. split; [exists o; auto|].
    intros Ps. pose proof (Hch s Hs Ps) as E. rewrite E in Ps. apply (witness_mono f f'); auto.
Qed.

Lemma K_edges clean f q v v' : (forall c, ins c -> (vedge v' c <-> vedge v c)) -> K clean f q v -> K clean f q v'.
Proof.
  intros E [HP HC HS]. constructor; auto.
  - intros s n Hs Hn Ht Ps Pn B. apply E; auto. now apply (HC s n).
  - intros Kc s Hs Ve. apply HS; auto. now apply E.
Qed.

(** ** Edges set and unset *)
Lemma set_edge w c w' : vok R C (Some w) -> ins c -> set_cell w c = Ok w' ->
  vok R C (Some w') /\ forall d, ins d -> (vedge (Some w') d <-> d = c \/ vedge (Some w) d).
Proof.
  intros (f & q & A & B) Hc E. destruct (set_ok R C w f q c A B Hc) as (w1 & E1 & D & F). assert (w1 = w') as -> by congruence.
  split; [cbn; eauto|]. intros d Hd. destruct D as (_ & _ & _ & D & _). destruct A as (_ & _ & _ & A & _). cbn. rewrite (D d Hd), (A d Hd).
  destruct (cell_eq_dec d c) as [->|N].
  - rewrite upd_same. split; auto. intros _. eexists. split; [reflexivity|]. reflexivity.
  - rewrite upd_other by auto. split; [auto|]. intros [|]; [contradiction|auto].
Qed.
Lemma unset_edge w c w' : vok R C (Some w) -> ins c -> unset_cell w c = Ok w' ->
  vok R C (Some w') /\ forall d, ins d -> (vedge (Some w') d <-> d <> c /\ vedge (Some w) d).
Proof.
  intros (f & q & A & B) Hc E. destruct (unset_ok R C w f q c A B Hc) as (w1 & E1 & D & F). assert (w1 = w') as -> by congruence.
  split; [cbn; eauto|]. intros d Hd. destruct D as (_ & _ & _ & D & _). destruct A as (_ & _ & _ & A & _). cbn. rewrite (D d Hd), (A d Hd).
  destruct (cell_eq_dec d c) as [->|N].
  - rewrite upd_same. split; [|tauto]. intros (i & [= <-] & Eo). cbn in Eo. exfalso. apply (no_cell_not_ins R C). now rewrite Eo.
  - rewrite upd_other by auto. tauto.
Qed.

(** ** [CheckVoro] *)
Section Occ.
Variable occ : grid Z.
Hypothesis Hocc : occ_ok R C occ.

(** The occupancy matrix has the numbers of the obstacles. *)
Definition counted (f : cell -> info) : Prop :=
  forall c, ins c -> (is_obst f c -> grid_get occ c = Ok (number c)) /\
    (~ is_obst f c -> forall d, ins d -> is_obst f d -> grid_get occ c <> Ok (number d)).

Lemma counted_same f f' : same_obst R C f f' -> counted f -> counted f'.
Proof.
  intros S H c Hc. destruct (H c Hc) as [A B]. split.
  - intros O. apply A. now apply S.
  - intros N d Hd O. apply B; auto; [|now apply S]. intros O'. apply N. now apply S.
Qed.

Lemma check_voro_edges m f q w s n w' : holds R C m f q -> cons R C f -> counted f -> ins s -> ins n -> good R C f s -> valid (f n) ->
  vok R C (Some w) -> check_voro occ m w s n = Ok w' ->
  (forall d, ins d -> vedge (Some w) d -> vedge (Some w') d) /\
  (seen f s n -> vedge (Some w') s) /\ (seen f n s -> vedge (Some w') n) /\
  (good R C f n -> forall d, ins d -> vedge (Some w') d -> vedge (Some w) d \/ (d = s /\ seen f s n) \/ (d = n /\ seen f n s)).
Proof.
  intros (Hw & Hr & Hcc & Hf & Hq) Hc Hk Hs Hn [Os Gs] Vn Hv. unfold check_voro.
  rewrite (Hf s Hs), (Hf n Hn). cbn [bind].
  assert (Vs : valid (f s)) by (unfold valid; now apply (ins_valid R C)).
  pose proof (proj1 (cons_valid R C n (f n) (Hc n Hn)) Vn) as On.
  assert (Ds : i_dist (f s) = sqd s (i_obst (f s))).
  { destruct (Hc s Hs) as [(E & _)|(_ & E)]; auto. exfalso. apply (no_cell_not_ins R C). now rewrite <- E. }
  assert (Dn : i_dist (f n) = sqd n (i_obst (f n))).
  { destruct (Hc n Hn) as [(E & _)|(_ & E)]; auto. exfalso. apply (no_cell_not_ins R C). now rewrite <- E. }
  unfold valid in Vn. rewrite Vn. fold (valid (f n)) in Vn.
  set (oS := i_obst (f s)) in *. set (oN := i_obst (f n)) in *.
  destruct (Hk oS Os) as [Ks _]. specialize (Ks Gs). rewrite Ks. cbn [bind].
  pose proof Hocc as (Hg & Hgr & Hgc).
  destruct (grid_get_ok occ oN Hg) as [b Eb]; [rewrite Hgr, Hgc; exact On|]. rewrite Eb. cbn [bind].
  assert (Kn : is_obst f oN -> b = number oN).
  { intros O. destruct (Hk oN On) as [X _]. specialize (X O). congruence. }
  assert (Kd : number oS = b -> is_obst f oN).
  { intros E. unfold is_obst. destruct (cell_eq_dec (i_obst (f oN)) oN) as [|N]; auto. exfalso. destruct (Hk oN On) as [_ X].
    apply (X N oS Os Gs). now rewrite E. }
  assert (keep : forall P Q Z : Prop, (P -> False) -> (Q -> False) -> (forall d, ins d -> vedge (Some w) d -> vedge (Some w) d) /\ (P -> vedge (Some w) s) /\ (Q -> vedge (Some w) n) /\
    (Z -> forall d, ins d -> vedge (Some w) d -> vedge (Some w) d \/ (d = s /\ P) \/ (d = n /\ Q))).
  { intros P Q Z0 NP NQ. split; auto. split; [tauto|]. split; [tauto|]. auto. }
  assert (SP : seen f s n <-> number oS <> number oN /\ border s n oS oN) by (unfold seen; fold oS oN; tauto).
  assert (SN : seen f n s <-> number oS <> number oN /\ border n s oN oS).
  { unfold seen. fold oS oN. split; [intros (A & B & D & E)|intros (A & B)]; repeat (split; auto). }
  destruct (Z.eqb_spec (number oS) b) as [E|E].
  { intros [= <-]. specialize (Kd E). specialize (Kn Kd). apply keep; rewrite ?SP, ?SN; intros [X _]; apply X; congruence. }
  rewrite andb_true_r.
  destruct ((1 <? i_dist (f s)) || (1 <? i_dist (f n))) eqn:E1.
  2:{ intros [= <-]. apply keep; rewrite ?SP, ?SN; intros (_ & _ & X & _); lia. }
  destruct ((1 <? Z.abs (row oS - row oN)) || (1 <? Z.abs (col oS - col oN))) eqn:E2.
  2:{ intros [= <-]. apply keep; rewrite ?SP, ?SN; intros (_ & X & _); unfold far in X; lia. }
  rewrite !(squared_distance_ok R C HRC) by auto. cbn [bind].
  destruct ((sqd s oN - i_dist (f s) <? 0) || (sqd n oS - i_dist (f n) <? 0)) eqn:E3.
  { intros [= <-]. apply keep; rewrite ?SP, ?SN; intros (_ & _ & _ & X & Y & _); lia. }
  assert (Bs : sqd s oN - i_dist (f s) <= sqd n oS - i_dist (f n) -> border s n oS oN).
  { intros L. unfold border, far. lia. }
  assert (Bn : sqd n oS - i_dist (f n) <= sqd s oN - i_dist (f s) -> border n s oN oS).
  { intros L. unfold border, far. lia. }
  assert (Bs' : border s n oS oN -> sqd s oN - i_dist (f s) <= sqd n oS - i_dist (f n)) by (intros (_ & _ & _ & _ & X); lia).
  assert (Bn' : border n s oN oS -> sqd n oS - i_dist (f n) <= sqd s oN - i_dist (f s)) by (intros (_ & _ & _ & _ & X); lia).
  assert (Ne : good R C f n -> number oS <> number oN).
  { intros [_ G]. fold oN in G. rewrite <- (Kn G). exact E. }
  destruct (Z.leb_spec (sqd s oN - i_dist (f s)) (sqd n oS - i_dist (f n))) as [L1|L1].
  - destruct (set_cell w s) as [w1| | |] eqn:W1; try discriminate. cbn [bind].
    destruct (set_edge w s w1 Hv Hs W1) as [V1 X1].
    destruct (Z.leb_spec (sqd n oS - i_dist (f n)) (sqd s oN - i_dist (f s))) as [L2|L2].
    + intros W2. destruct (set_edge w1 n w' V1 Hn W2) as [V2 X2]. split; [|split; [|split]].
      * intros d Hd V. apply X2; auto. right. apply X1; auto.
      * intros _. apply X2; auto. right. apply X1; auto.
      * intros _. apply X2; auto.
      * intros G d Hd V. apply X2 in V as [->|V]; auto; [right; right; split; auto; apply SN; auto|].
        apply X1 in V as [->|V]; auto. right. left. split; auto. apply SP; auto.
    + intros [= <-]. split; [|split; [|split]].
      * intros d Hd V. apply X1; auto.
      * intros _. apply X1; auto.
      * intros X. apply SN in X as [_ X]. apply Bn' in X. lia.
      * intros G d Hd V. apply X1 in V as [->|V]; auto. right. left. split; auto. apply SP; auto.
  - cbn [bind]. destruct (Z.leb_spec (sqd n oS - i_dist (f n)) (sqd s oN - i_dist (f s))) as [L2|L2]; [|lia].
    intros W2. destruct (set_edge w n w' Hv Hn W2) as [V2 X2]. split; [|split; [|split]].
    + intros d Hd V. apply X2; auto.
    + intros X. apply SP in X as [_ X]. apply Bs' in X. lia.
    + intros _. apply X2; auto.
    + intros G d Hd V. apply X2 in V as [->|V]; auto. right. right. split; auto. apply SN; auto.
Qed.

(** ** One lowered neighbour *)
Lemma lower_one_edges m w f q s n m' v' : holds R C m f q -> cons R C f -> counted f -> ins s -> ins n -> good R C f s ->
  vok R C (Some w) -> lower_one occ s (m, Some w) n = Ok (m', v') ->
  exists w', v' = Some w' /\
  ((flagged f n /\ m' = m /\ w' = w) \/
   (~ flagged f n /\ i_dist (f n) <= sqd (i_obst (f s)) n /\ valid (f n) /\ m' = m /\ check_voro occ m w s n = Ok w') \/
   (~ flagged f n /\ sqd (i_obst (f s)) n < i_dist (f n) /\ w' = w /\
     holds R C m' (upd f n (Info (sqd (i_obst (f s)) n) (i_obst (f s)) false true)) (q ++ [n]))).
Proof.
  intros Hm Hc Hk Hs Hn [Os Gs] Hv. unfold lower_one. pose proof Hm as (Hw & Hr & Hcc & Hf & Hq). rewrite (Hf n Hn). cbn [bind].
  unfold flagged. destruct (i_raise (f n)) eqn:Er.
  { intros [= <- <-]. exists w. auto. }
  rewrite (Hf s Hs). cbn [bind]. rewrite (squared_distance_ok R C HRC) by auto. cbn [bind].
  destruct (Z.ltb_spec (sqd (i_obst (f s)) n) (i_dist (f n))) as [Hd|Hd].
  - destruct (put_holds R C m f q n (Info (sqd (i_obst (f s)) n) (i_obst (f s)) false true) Hm Hn) as (m1 & E & Hm1). rewrite E. cbn [bind].
    intros [= <- <-]. exists w. split; auto. right; right. split; [discriminate|]. split; auto. split; auto. now apply push_holds.
  - destruct (check_voro occ m w s n) as [w1| | |] eqn:E; try discriminate. cbn [bind]. intros [= <- <-]. exists w1. split; auto. right; left.
    split; [discriminate|]. split; auto. split; auto. destruct (Hc n Hn) as [(_ & D)|(D & _)]; [|now apply (ins_valid R C)].
    pose proof (sqd_bound R C HRC (i_obst (f s)) n Os Hn). lia.
Qed.

(** ** The loops *)
Section Clean.
Variable clean : Prop.

Lemma lower_loop_edges m w f q s m' v' : holds R C m f q -> JL R C s f q -> counted f -> ins s -> vok R C (Some w) -> i_proc (f s) = false ->
  (clean -> NS R C f) -> Pi f q ->
  (forall t u, ins t -> ins u -> touches t u -> t <> s -> u <> s -> i_proc (f t) = false -> i_proc (f u) = false -> seen f t u -> vedge (Some w) t) ->
  (clean -> Sound f (Some w)) ->
  fold_res (lower_one occ s) (m, Some w) (get_neighbors R C s) = Ok (m', v') ->
  exists f' q' w', v' = Some w' /\ holds R C m' f' q' /\ K clean f' q' (Some w').
Proof.
  intros Hm HJ Hk Hs Hv Hps Hns Hpi Hcomp Hsnd Efold.
  assert (Hocc' := Hocc).
  destruct (fold_res_inv (lower_one occ s) (fun d st => exists f' q' w', snd st = Some w' /\ holds R C (fst st) f' q' /\ vok R C (Some w') /\
      JL R C s f' q' /\ counted f' /\ i_proc (f' s) = false /\ (clean -> NS R C f') /\ Pi f' q' /\
      (forall t u, ins t -> ins u -> touches t u -> (t = s -> In u d) -> (u = s -> In t d) -> i_proc (f' t) = false -> i_proc (f' u) = false -> seen f' t u -> vedge (Some w') t) /\
      (clean -> Sound f' (Some w')))
    (get_neighbors R C s) [] (m, Some w)) as ((m1 & v1) & E & f' & q' & w' & A1 & A2 & A3 & A4 & A5 & A6 & A7 & A8 & A9 & A10).
  - cbn [app]. intros d n r (m1 & v1) El (f1 & q1 & w1 & A1 & A2 & A3 & A4 & A5 & A6 & A7 & A8 & A9 & A10). cbn [fst snd] in *. subst v1.
    assert (Hin : In n (get_neighbors R C s)) by (rewrite El; apply in_or_app; right; now left).
    apply (get_neighbors_In R C s n Hs) in Hin as [Hn Ht]. pose proof (touches_neq _ _ Ht) as Hne.
    pose proof A4 as [Dc DQ DF DL DG Dfl].
    assert (Vs : valid (f1 s)) by (apply (ins_valid R C), DG).
    destruct (lower_one_spec R C HRC occ m1 (Some w1) f1 q1 s n Hocc A2 Dc Hs Hn Ht Vs A3) as (m2 & v2 & f2 & q2 & E2 & H2 & (V2 & _) & _).
    exists (m2, v2). split; auto. cbn [fst snd].
    destruct (lower_one_edges m1 w1 f1 q1 s n m2 v2 A2 Dc A5 Hs Hn DG A3 E2) as (w2 & -> & Hcase).
    destruct Hcase as [(Hfl & -> & ->)|[(NF & Hd & Vn & -> & Ec)|(NF & Hd & -> & Hh)]].
    + (* raised *)
      exists f1, q1, w1. split; auto. split; auto. split; auto. split; auto. split; auto. split; auto. split; auto. split; auto. split; auto.
      destruct (DF n Hn ltac:(discriminate) Hfl) as (Pn & _).
      intros t u It Iu Htu Et Eu Pt Pu. apply A9; auto.
      * intros ->. destruct (in_app_or _ _ _ (Et eq_refl)) as [|[<-|[]]]; auto. congruence.
      * intros ->. destruct (in_app_or _ _ _ (Eu eq_refl)) as [|[<-|[]]]; auto. congruence.
    + (* checked *)
      destruct (check_voro_edges m1 f1 q1 w1 s n w2 A2 Dc A5 Hs Hn DG Vn A3 Ec) as (X1 & X2 & X3 & X4).
      exists f1, q1, w2. split; auto. split; auto. split; auto. split; auto. split; auto. split; auto. split; auto. split; auto. split.
      * intros t u It Iu Htu Et Eu Pt Pu B.
        destruct (cell_eq_dec t s) as [->|Nt].
        { destruct (in_app_or _ _ _ (Et eq_refl)) as [I|[<-|[]]]; [|auto]. apply X1; auto. apply (A9 s u); auto. intros ->. exfalso. apply touches_neq in Htu. congruence. }
        destruct (cell_eq_dec u s) as [->|Nu].
        { destruct (in_app_or _ _ _ (Eu eq_refl)) as [I|[<-|[]]]; [|auto]. apply X1; auto. apply (A9 t s); auto. intros ->. congruence. }
        apply X1; auto. apply (A9 t u); auto; intros; contradiction.
      * intros Kc t It Ve. split; [exists (i_obst (f1 s)); exact DG|]. intros Pt. specialize (A7 Kc). pose proof (A7 n Hn Vn) as Gn. specialize (X4 Gn t It Ve).
        destruct X4 as [Y|[(-> & Y)|(-> & Y)]]; [now apply A10| |].
        -- destruct Y as (Y1 & Y2 & Y3 & Y4). exists n, (i_obst (f1 n)). destruct Gn as [Gn1 Gn2]. repeat (split; auto).
        -- destruct Y as (Y1 & Y2 & Y3 & Y4). exists s, (i_obst (f1 s)). destruct DG as [Gn1 Gn2]. split; auto. split; [now apply touches_sym|]. repeat (split; auto).
    + (* lowered *)
      destruct (JL_lower R C s f1 q1 n A4 Hs Hn (not_eq_sym Hne) NF Hd) as (X & Y). cbn zeta in X, Y.
      set (x := Info _ _ _ _) in *. set (f3 := upd f1 n x) in *.
      assert (Hes : f3 n = x) by apply upd_same.
      assert (Heo : forall d, d <> n -> f3 d = f1 d) by (intros; now apply upd_other).
      exists f3, (q1 ++ [n]), w1. split; auto. split; auto. split; auto. split; auto.
      split; [apply counted_same with f1; auto; apply (nw_same R C _ _ Y)|]. split; [now rewrite (Heo s Hne)|].
      split; [intros Kc; apply (NS_noworse R C f1 f3); auto|]. split; [|split].
      * intros c Hc Pc. destruct (cell_eq_dec c n) as [->|N]; [left; apply in_or_app; right; now left|].
        rewrite (Heo c N) in *. destruct (A8 c Hc Pc); auto. left. apply in_or_app; auto.
      * intros t u It Iu Htu Et Eu Pt Pu B.
        assert (Nt : t <> n) by (intros ->; rewrite Hes in Pt; discriminate). assert (Nu : u <> n) by (intros ->; rewrite Hes in Pu; discriminate).
        unfold seen in B. rewrite (Heo t Nt), (Heo u Nu) in *. apply (A9 t u); auto.
        -- intros ->. destruct (in_app_or _ _ _ (Et eq_refl)) as [|[<-|[]]]; auto. congruence.
        -- intros ->. destruct (in_app_or _ _ _ (Eu eq_refl)) as [|[<-|[]]]; auto. congruence.
      * intros Kc t It Ve. split; [exists (i_obst (f3 s)); exact (jl_good R C _ _ _ X)|]. intros Pt. assert (Nt : t <> n) by (intros ->; rewrite Hes in Pt; discriminate). pose proof (Heo t Nt) as Et. rewrite Et in Pt.
        apply (witness_mono f1 f3); auto; [intros c Hc O; now apply (nw_same R C _ _ Y)|]. now apply A10.
  - exists f, q, w. cbn [fst snd]. do 8 (split; [now auto|]). split; [|auto].
    intros t u It Iu Htu Et Eu Pt Pu B. apply (Hcomp t u); auto.
  - cbn [app fst snd] in *. rewrite Efold in E. injection E as <- <-. exists f', q', w'. split; auto. split; auto. constructor; auto.
    intros t u It Iu Htu Pt Pu B. apply (A9 t u); auto.
    + intros ->. apply (get_neighbors_In R C s u Hs). auto.
    + intros ->. apply (get_neighbors_In R C s t Hs). split; auto. now apply touches_sym.
Qed.

Lemma raise_loop_cells m f q s m' : holds R C m f q -> cons R C f -> Pi f q -> ins s ->
  fold_res raise_one m (get_neighbors R C s) = Ok m' ->
  exists f' q', holds R C m' f' q' /\ Pi f' q' /\ (forall c, ins c -> i_proc (f' c) = false -> f' c = f c).
Proof.
  intros Hm Hc Hp Hs Efold.
  destruct (fold_res_inv raise_one (fun _ m' => exists f' q', holds R C m' f' q' /\ cons R C f' /\ Pi f' q' /\ (forall c, ins c -> i_proc (f' c) = false -> f' c = f c))
    (get_neighbors R C s) [] m) as (m1 & E & f' & q' & A & B & D & F).
  - cbn [app]. intros d n r m1 El (f1 & q1 & A & B & D & F).
    assert (Hin : In n (get_neighbors R C s)) by (rewrite El; apply in_or_app; right; now left).
    apply (get_neighbors_In R C s n Hs) in Hin as [Hn Ht].
    destruct (raise_one_spec R C m1 f1 q1 n A B Hn) as (m2 & f2 & q2 & E2 & H2 & Hcase). exists m2. split; auto. exists f2, q2. split; auto.
    destruct Hcase as [(Hk & -> & ->)|[(V & NF & Ho & -> & ->)|(V & NF & Ho & -> & ->)]]; auto.
    + split; [|split].
      * intros c Hi. destruct (upd_cases f1 n (set_proc (f1 n) true) c) as [(-> & ->)|(N & ->)]; auto. specialize (B n Hn). exact B.
      * intros c Hi P. destruct (cell_eq_dec c n) as [->|N]; [left; apply in_or_app; right; now left|]. rewrite upd_other in * by auto.
        destruct (D c Hi P); auto. left. apply in_or_app; auto.
      * intros c Hi P. destruct (upd_cases f1 n (set_proc (f1 n) true) c) as [(-> & Eu)|(N & Eu)]; rewrite Eu in *; auto. discriminate P.
    + split; [|split].
      * intros c Hi. destruct (upd_cases f1 n (Info inf no_cell true true) c) as [(-> & ->)|(N & ->)]; auto. left. auto.
      * intros c Hi P. destruct (cell_eq_dec c n) as [->|N]; [left; apply in_or_app; right; now left|]. rewrite upd_other in * by auto.
        destruct (D c Hi P); auto. left. apply in_or_app; auto.
      * intros c Hi P. destruct (upd_cases f1 n (Info inf no_cell true true) c) as [(-> & Eu)|(N & Eu)]; rewrite Eu in *; auto. discriminate P.
  - exists f, q. auto.
  - assert (m1 = m') as -> by congruence. exists f', q'. auto.
Qed.

(** ** One iteration *)
Variable top : nat -> list (cell * Z) -> nat.
Hypothesis Htop : forall k q, q <> [] -> (top k q < length q)%nat.

Lemma K_agree f f' q v : (forall c, ins c -> f' c = f c) -> K clean f q v -> K clean f' q v.
Proof.
  intros E H. apply (K_change clean f f' q q v H).
  - auto.
  - intros c Hc P. rewrite (E c Hc) in *. now apply (k_pi _ _ _ _ H).
  - intros _ c Hc. unfold is_obst. now rewrite (E c Hc).
Qed.

Lemma step_edges m w f q : holds R C m f q -> J R C f q -> vok R C (Some w) -> counted f -> (clean -> NS R C f) -> K clean f q (Some w) -> q <> [] ->
  exists m' w' f' q', update_step top occ (m, Some w) = Ok (m', Some w') /\ holds R C m' f' q' /\ J R C f' q' /\ vok R C (Some w') /\
    counted f' /\ (clean -> NS R C f') /\ K clean f' q' (Some w').
Proof.
  intros Hm HJ Hv Hk Hns HK Hne.
  destruct (step_ok R C HRC top Htop occ Hocc m (Some w) f q Hm HJ Hv Hne) as (m' & v' & f' & q' & E & H' & J' & V' & (N' & _) & _).
  enough (W : exists f2 q2 w', v' = Some w' /\ holds R C m' f2 q2 /\ K clean f2 q2 (Some w')).
  { destruct W as (f2 & q2 & w' & -> & H2 & K2). exists m', w', f', q'. split; auto. split; auto. split; auto. split; auto.
    split; [apply counted_same with f; auto; apply (nw_same R C _ _ N')|]. split; [intros Kc; apply (NS_noworse R C f f'); auto|].
    destruct (holds_unique m' f2 q2 f' q' H2 H') as [X ->]. now apply (K_agree f2). }
  clear N' V' J' H' f' q'. pose proof HJ as [Hc HQ HF HL HE]. pose proof HK as [HP HC HS]. unfold update_step in E.
  destruct (pop_ok R C top Htop m f q Hm Hne) as (s & m1 & l & r & Ep & Hm1 & Eq). rewrite Ep in E. cbn [bind] in E.
  pose proof Hm1 as (_ & Hr1 & Hc1 & Hf1 & _).
  destruct (HQ s) as (Hs & Hqs). { rewrite Eq. apply In_mid. auto. }
  rewrite (Hf1 s Hs) in E. cbn [bind] in E. rewrite Hr1, Hc1 in E.
  assert (Hpe : forall c, c <> s -> In c q -> In c (l ++ r)).
  { intros c N B. rewrite Eq in B. apply In_mid in B as [|]; congruence. }
  destruct (i_proc (f s)) eqn:Epr; cbn [negb] in E.
  2:{ injection E as <- <-. exists f, (l ++ r), w. split; auto. split; auto. constructor; auto. intros c Hi P. destruct (HP c Hi P); auto.
      left. apply Hpe; auto. congruence. }
  destruct (i_raise (f s)) eqn:Era.
  - destruct (fold_res raise_one m1 _) as [m2| | |] eqn:E2; try discriminate. cbn [bind] in E.
    assert (HP1 : Pi f (l ++ r)).
    { intros c Hi P. destruct (HP c Hi P) as [I|]; auto. destruct (cell_eq_dec c s) as [->|N]; [|auto].
      destruct (HF s Hs ltac:(discriminate) Era) as (_ & _ & D).
      destruct (cell_is_valid (i_obst (f s))) eqn:V; [|right; unfold valid; congruence].
      destruct (D V) as [_ D2]. left. apply count_In. rewrite Eq, count_mid, cell_eqb_refl in D2. lia. }
    destruct (raise_loop_cells m1 f (l ++ r) s m2 Hm1 Hc HP1 Hs E2) as (f2 & q2 & H2 & P2 & U2).
    pose proof H2 as (_ & _ & _ & Hf2 & _). rewrite (Hf2 s Hs) in E. cbn [bind] in E.
    destruct (put_holds R C m2 f2 q2 s (set_raise (f2 s) false) H2 Hs) as (m3 & E3 & H3). rewrite E3 in E. cbn [bind] in E. injection E as <- <-.
    eexists _, q2, w. split; auto. split; [exact H3|].
    assert (Ps : i_proc (f2 s) = true). { destruct (i_proc (f2 s)) eqn:X; auto. rewrite (U2 s Hs X) in X. congruence. }
    (* the obstacles stay, by the specification of the loop *)
    assert (Hsame : forall c, ins c -> is_obst f c -> is_obst (upd f2 s (set_raise (f2 s) false)) c).
    { assert (HJR : JR R C s f (l ++ r)).
      { destruct (HF s Hs ltac:(discriminate) Era) as (A & B & D). constructor; auto.
        - intros c Hi. apply HQ. rewrite Eq. apply In_mid. auto.
        - intros c Hi Hx Hfl. assert (c <> s) as N by congruence.
          assert (count (l ++ r) c = count q c) as ->. { rewrite Eq, count_mid. destruct (cell_eqb s c) eqn:Es; [|lia]. apply cell_eqb_eq in Es. congruence. }
          apply HF; auto. discriminate.
        - intros t u Ht Hu Htu Hx Vt Ft Pt. apply HL; auto. intros [P I]. apply Pt. split; auto. apply Hpe; auto. intros ->. contradiction.
        - destruct (cell_is_valid (i_obst (f s))) eqn:V.
          + right. destruct (D V) as [D1 D2]. split; auto. rewrite Eq, count_mid, cell_eqb_refl in D2. lia.
          + left. apply (cons_invalid R C s (f s) (Hc s Hs)). unfold valid. congruence. }
      destruct (raise_loop R C m1 f (l ++ r) s Hm1 HJR Hs) as (m2' & f2' & q2' & E2' & H2' & J2 & (N2 & _) & R2).
      assert (m2' = m2) as -> by congruence. destruct (holds_unique m2 f2 q2 f2' q2' H2 H2') as [X _].
      intros c Hi O. apply (nw_same R C _ _ N2) in O; auto. unfold is_obst in *.
      destruct (upd_cases f2 s (set_raise (f2 s) false) c) as [(-> & ->)|(_ & ->)]; cbn; rewrite <- (X _ Hi); auto. }
    apply (K_change clean f _ q q2 (Some w) HK); auto.
    + intros c Hi. destruct (upd_cases f2 s (set_raise (f2 s) false) c) as [(-> & ->)|(_ & ->)]; auto. cbn. congruence.
    + intros c Hi. destruct (upd_cases f2 s (set_raise (f2 s) false) c) as [(-> & ->)|(_ & ->)]; auto. exact (P2 s Hs).
  - rewrite (is_occupied_ok R C m1 f (l ++ r) (f s) Hm1) in E by apply (cons_valid R C s (f s) (Hc s Hs)). cbn [bind] in E.
    destruct (cell_is_valid (i_obst (f s)) && cell_eqb (i_obst (f (i_obst (f s)))) (i_obst (f s))) eqn:Eo.
    + assert (Gs : good R C f s).
      { apply andb_true_iff in Eo as [A B]. apply cell_eqb_eq in B. split; auto. now apply (cons_valid R C s (f s) (Hc s Hs)). }
      destruct (unset_cell w s) as [w1| | |] eqn:Ew; try discriminate. cbn [bind rmap] in E.
      destruct (unset_edge w s w1 Hv Hs Ew) as [V1 X1].
      destruct (put_holds R C m1 f (l ++ r) s (set_proc (f s) false) Hm1 Hs) as (m2 & E2 & H2). rewrite E2 in E. cbn [bind] in E.
      set (f1 := upd f s (set_proc (f s) false)) in *.
      assert (Heq : forall c, i_dist (f1 c) = i_dist (f c) /\ i_obst (f1 c) = i_obst (f c) /\ i_raise (f1 c) = i_raise (f c)).
      { intros c. unfold f1. destruct (upd_cases f s (set_proc (f s) false) c) as [(-> & ->)|(_ & ->)]; auto. }
      assert (Heo : forall c, c <> s -> f1 c = f c) by (intros; now apply upd_other).
      assert (Hes : f1 s = set_proc (f s) false) by apply upd_same.
      pose proof (same_obst_proc R C f s false) as Hsame. fold f1 in Hsame.
      assert (HJL : JL R C s f1 (l ++ r)).
      { constructor.
        - intros c Hi. specialize (Hc c Hi). unfold cons1 in *. destruct (Heq c) as (-> & -> & _). auto.
        - intros c Hi. destruct (HQ c) as (A & B); [rewrite Eq; apply In_mid; auto|]. split; auto. destruct (Heq c) as (_ & Ec & _).
          destruct B as [B|B]; [left; congruence|right; now apply (good_same R C f f1 c)].
        - intros c Hi _ Hfl. assert (c <> s) as N. { intros ->. unfold flagged in Hfl. destruct (Heq s) as (_ & _ & Ec). congruence. }
          unfold flagged in Hfl. rewrite (Heo c N) in *.
          assert (count (l ++ r) c = count q c) as ->. { rewrite Eq, count_mid. destruct (cell_eqb s c) eqn:Es; [|lia]. apply cell_eqb_eq in Es. congruence. }
          apply HF; auto. discriminate.
        - intros t u Ht Hu Htu Hx Vt Ft Pt. assert (t <> s) as N by congruence. unfold flagged in *. rewrite (Heo t N) in *.
          destruct (Heq u) as (-> & _ & ->). apply HL; auto; [discriminate|]. intros [P I]. apply Pt. unfold pending. rewrite (Heo t N). auto.
        - apply (good_same R C f f1 s); auto. apply Heq.
        - unfold flagged. destruct (Heq s) as (_ & _ & ->). congruence. }
      destruct (lower_loop_edges m2 w1 f1 (l ++ r) s m' v' H2 HJL) as (f3 & q3 & w3 & W1 & W2 & W3); auto; [..|exists f3, q3, w3; auto].
      * apply counted_same with f; auto.
      * now rewrite Hes.
      * intros Kc. apply (NS_noworse R C f f1); auto. now apply noworse_proc.
      * intros c Hi P. assert (c <> s) as N by (intros ->; rewrite Hes in P; discriminate). rewrite (Heo c N) in *. destruct (HP c Hi P); auto.
      * intros t u It Iu Htu Nt Nu. unfold seen. rewrite (Heo t Nt), (Heo u Nu). intros Pt Pu B. apply X1; auto. split; auto. apply (HC t u); auto.
      * intros Kc t It Ve. split; [exists (i_obst (f1 s)); exact (jl_good R C _ _ _ HJL)|]. intros Pt. apply X1 in Ve as [N Ve]; auto. pose proof (Heo t N) as Et. rewrite Et in Pt. apply (witness_mono f f1); auto; [intros c Hi; now apply Hsame|now apply HS].
    + injection E as <- <-. exists f, (l ++ r), w. split; auto. split; auto. constructor; auto. intros c Hi P. destruct (HP c Hi P); auto.
      destruct (cell_eq_dec c s) as [->|N]; auto. right. intros V. destruct Hqs as [X|[X1 X2]]; [unfold valid in V; rewrite X in V; discriminate V|].
      unfold valid in V. rewrite V in Eo. cbn in Eo. unfold is_obst in X2. rewrite X2, cell_eqb_refl in Eo. discriminate Eo.
Qed.

Lemma update_edges fuel : forall m w f q m' v', holds R C m f q -> J R C f q -> vok R C (Some w) -> counted f -> (clean -> NS R C f) -> K clean f q (Some w) ->
  update top occ fuel (m, Some w) = Ok (m', v') -> exists f' w', v' = Some w' /\ holds R C m' f' [] /\ K clean f' [] (Some w').
Proof.
  induction fuel as [|fuel IH]; intros m w f q m' v' Hm HJ Hv Hk Hns HK E; pose proof Hm as (_ & _ & _ & _ & Hq); cbn [update fst] in E.
  - destruct (d_open m) eqn:Eo; [|discriminate]. cbn in Hq. subst q. injection E as <- <-. exists f, w. auto.
  - destruct (d_open m) eqn:Eo.
    + cbn in Hq. subst q. injection E as <- <-. exists f, w. auto.
    + destruct (step_edges m w f q Hm HJ Hv Hk Hns HK) as (m1 & w1 & f1 & q1 & E1 & A1 & A2 & A3 & A4 & A5 & A6); [rewrite <- Hq; discriminate|].
      rewrite E1 in E. cbn [bind] in E. apply (IH m1 w1 f1 q1 m' v'); auto.
Qed.
End Clean.
End Occ.

(** ** Histories *)
Section Run.
Variables top topv : nat -> list (cell * Z) -> nat.
Hypothesis Htop : forall k q, q <> [] -> (top k q < length q)%nat.
Hypothesis Htopv : forall k q, q <> [] -> (topv k q < length q)%nat.

Lemma K_weaken (P Q : Prop) f q v : (Q -> P) -> K P f q v -> K Q f q v.
Proof. intros H [A B D]. constructor; auto. Qed.

Lemma g_step_ridge st made obst clean tame f q o : ginv R C st made obst clean tame f q -> K (clean = true) f q (g_vor st) ->
  well_used R C made [o] -> numbered R C number made (g_occ st) obst [o] ->
  exists fuel0 st' f' q', (forall fuel, (fuel0 <= fuel)%nat -> g_step top topv fuel st o = Ok st') /\
    ginv R C st' (match o with GVoronoi => true | _ => made end)
      (fun c => obstacle_after (obst c) [o] c) (clean && negb (is_unset o)) (tame && negb (is_edge o)) f' q' /\
    K (clean && negb (is_unset o) = true) f' q' (g_vor st') /\
    (o = GUpdateObstacles -> q' = []) /\ (o = GUpdateVoronoi -> f' = f /\ q' = q) /\
    g_occ st' = match o with GOcc g => g | _ => g_occ st end.
Proof.
  intros HG HK Hu [Hn _].
  destruct (g_step_ok R C HRC top topv Htop Htopv st made obst clean tame f q o HG Hu) as (k & st' & f' & q' & E & G' & Q1 & Q2).
  exists k, st', f', q'. split; auto. split; auto.
  enough (W : (exists f2 q2, holds R C (g_obs st') f2 q2 /\ K (clean && negb (is_unset o) = true) f2 q2 (g_vor st')) /\ g_occ st' = match o with GOcc g => g | _ => g_occ st end).
  { destruct W as [(f2 & q2 & W1 & W2) W3]. destruct (holds_unique _ f2 q2 f' q' W1 (gi_holds _ _ _ _ _ _ _ _ _ G')) as [X ->].
    split; [now apply (K_agree _ f2)|]. split; auto. split; auto. intros Eo. destruct (Q2 Eo) as (A & _). split; auto.
    destruct (Q2 Eo) as (_ & B & _). exact B. }
  clear Q1 Q2. specialize (E k (le_n k)). pose proof HG as [Hh Hj Hv Hm Ho Hobs Hcl Hap]. destruct Hu as [Hu _].
  destruct o as [c|c| |c|c|g| |]; cbn [g_step is_unset negb] in *; rewrite ?andb_true_r, ?andb_false_r.
  - destruct (set_ok R C _ f q c Hh Hj Hu) as (m & Em & A & B). rewrite Em in E. cbn [bind] in E. injection E as <-. cbn [g_obs g_vor g_occ]. split; auto.
    eexists _, _. split; [exact A|]. apply (K_change _ f _ q (q ++ [c]) _ HK).
    + intros d Hd. destruct (upd_cases f c (Info 0 c (i_raise (f c)) true) d) as [(-> & ->)|(N & ->)]; auto. discriminate.
    + intros d Hd P. destruct (cell_eq_dec d c) as [->|N]; [left; apply in_or_app; right; now left|]. rewrite upd_other in * by auto.
      destruct (k_pi _ _ _ _ HK d Hd P); auto. left. apply in_or_app; auto.
    + intros _ d Hd. unfold is_obst. destruct (upd_cases f c (Info 0 c (i_raise (f c)) true) d) as [(-> & ->)|(N & ->)]; auto.
  - destruct (unset_ok R C _ f q c Hh Hj Hu) as (m & Em & A & B). rewrite Em in E. cbn [bind] in E. injection E as <-. cbn [g_obs g_vor g_occ]. split; auto.
    eexists _, _. split; [exact A|]. apply (K_weaken _ (false = true)) in HK; [|discriminate]. apply (K_change _ f _ q (q ++ [c]) _ HK).
    + intros d Hd. destruct (upd_cases f c (Info inf no_cell true true) d) as [(-> & ->)|(N & ->)]; auto. discriminate.
    + intros d Hd P. destruct (cell_eq_dec d c) as [->|N]; [left; apply in_or_app; right; now left|]. rewrite upd_other in * by auto.
      destruct (k_pi _ _ _ _ HK d Hd P); auto. left. apply in_or_app; auto.
    + discriminate.
  - destruct (g_vor st) as [w|] eqn:Ew.
    + injection E as <-. split; auto. exists f, q. rewrite Ew. auto.
    + pose proof Hh as (_ & Hr & Hc & _). rewrite Hr, Hc in E. destruct (new_ok R C HRC) as (w & En & A & B). rewrite En in E. cbn [bind] in E.
      injection E as <-. cbn [g_obs g_vor g_occ]. split; auto. exists f, q. split; auto. apply (K_edges _ f q None (Some w)); auto.
      intros d Hd. split; [|intros []]. intros (i & Ei & Eo). destruct A as (_ & _ & _ & A & _). rewrite (A d Hd) in Ei. injection Ei as <-.
      cbn in Eo. apply (no_cell_not_ins R C). now rewrite Eo.
  - contradiction.
  - contradiction.
  - injection E as <-. cbn. split; auto. exists f, q. auto.
  - destruct Hn as [-> Hn]. specialize (Hm eq_refl). destruct (g_vor st) as [w|] eqn:Ew; [|contradiction].
    destruct (update top (g_occ st) k (g_obs st, Some w)) as [[m v]| | |] eqn:Eu; try discriminate. cbn [bind] in E. injection E as <-. cbn [g_obs g_vor g_occ]. split; auto.
    destruct (update_edges (g_occ st) Ho (clean = true) top Htop k (g_obs st) w f q m v) as (f2 & w2 & -> & A & B); auto.
    + apply jb_j with (1 := Hj).
    + intros c Hc. destruct (Hn c Hc) as [N1 N2]. split.
      * intros O. apply N1. now apply Hobs.
      * intros NO d Hd O. apply N2; auto; [|now apply Hobs]. destruct (obst c) eqn:X; auto. exfalso. apply NO. now apply Hobs.
    + exists f2, []. auto.
  - specialize (Hm Hu). unfold on_voronoi in E. destruct (g_vor st) as [w|] eqn:Ew; [|contradiction].
    destruct Hv as (fv & qv & Hv1 & Hv2).
    destruct (update_terminates R C HRC topv Htopv (g_occ st) Ho w None fv qv Hv1 (jb_j R C _ _ Hv2) I) as (fuel0 & m' & v' & f2 & Eu & A & B & D & N & _).
    assert (X : update topv (g_occ st) k (w, None) = Ok (m', v')).
    { destruct (update topv (g_occ st) k (w, None)) as [[m1 v1]| | |] eqn:E1; try discriminate. clear E.
      assert (mono : forall j st0 r, update topv (g_occ st) j st0 = Ok r -> forall j', (j <= j')%nat -> update topv (g_occ st) j' st0 = Ok r).
      { clear. induction j as [|j IH]; intros st0 r E j' L.
        - destruct j'; [exact E|]. cbn [update] in *. destruct (d_open (fst st0)); [exact E|discriminate].
        - destruct j' as [|j']; [lia|]. cbn [update] in *. destruct (d_open (fst st0)); [exact E|].
          destruct (update_step topv (g_occ st) st0) as [st1| | |]; try discriminate. cbn [bind] in *. apply IH; auto. lia. }
      rewrite <- (Eu (Nat.max fuel0 k)) by lia. symmetry. apply (mono k); auto. lia. }
    rewrite X in E. cbn [bind rmap fst] in E. injection E as <-. cbn [g_obs g_vor g_occ]. split; auto. exists f, q. split; auto.
    apply (K_edges _ f q (Some w)); auto. intros c Hc. cbn. destruct A as (_ & _ & _ & A & _). destruct Hv1 as (_ & _ & _ & Hv1 & _). rewrite (A c Hc), (Hv1 c Hc).
    pose proof (nw_same R C _ _ N c Hc) as S. unfold is_obst in S. split; intros (i & [= <-] & Ei); eexists; (split; [reflexivity|]); now apply S.
Qed.

Lemma g_run_ridge ops : forall rest st made obst clean tame f q, ginv R C st made obst clean tame f q -> K (clean = true) f q (g_vor st) ->
  well_used R C made (ops ++ rest) -> numbered R C number made (g_occ st) obst (ops ++ rest) ->
  exists fuel0 st' f' q' made' obst' clean' tame', (forall fuel, (fuel0 <= fuel)%nat -> g_run top topv fuel st ops = Ok st') /\
    ginv R C st' made' obst' clean' tame' f' q' /\ K (clean' = true) f' q' (g_vor st') /\
    (forall c, obst' c = obstacle_after (obst c) ops c) /\ clean' = clean && negb (existsb is_unset ops) /\
    well_used R C made' rest /\ numbered R C number made' (g_occ st') obst' rest.
Proof.
  induction ops as [|o ops IH]; intros rest st made obst clean tame f q HG HK Hu Hn.
  - exists O, st, f, q, made, obst, clean, tame. cbn. rewrite !andb_true_r. auto 10.
  - cbn [app] in *. destruct Hu as [Hu1 Hu2]. destruct Hn as [Hn1 Hn2].
    destruct (g_step_ridge st made obst clean tame f q o HG HK (conj Hu1 I) (conj Hn1 I)) as (k1 & st1 & f1 & q1 & E1 & G1 & K1 & _ & _ & O1).
    rewrite <- O1 in Hn2.
    destruct (IH rest st1 _ _ _ _ f1 q1 G1 K1 Hu2 Hn2) as (k2 & st2 & f2 & q2 & made2 & obst2 & clean2 & tame2 & E2 & G2 & K2 & P2 & C2 & U2 & N2).
    exists (Nat.max k1 k2), st2, f2, q2, made2, obst2, clean2, tame2. split; [|split; [exact G2|split; [exact K2|split; [|split; [|split; [exact U2|exact N2]]]]]].
    + intros fuel Hf. unfold g_run. cbn [fold_res]. rewrite E1 by lia. cbn [bind]. apply E2. lia.
    + intros c. rewrite P2. destruct o; reflexivity.
    + rewrite C2. cbn [existsb]. now rewrite negb_orb, andb_assoc.
Qed.

Lemma ridge_diagram occ ops : occ_ok R C occ -> well_used R C false (ops ++ [GUpdateObstacles; GUpdateVoronoi]) ->
  numbered R C number false occ (fun _ => false) (ops ++ [GUpdateObstacles; GUpdateVoronoi]) ->
  exists fuel0 st0 st f w, g_new occ = Ok st0 /\
    (forall fuel, (fuel0 <= fuel)%nat -> g_run top topv fuel st0 (ops ++ [GUpdateObstacles; GUpdateVoronoi]) = Ok st) /\
    holds R C (g_obs st) f [] /\ J R C f [] /\ g_vor st = Some w /\
    (forall c, ins c -> (is_obst f c <-> obstacle ops c)) /\ (existsb is_unset ops = false -> NS R C f) /\
    K (existsb is_unset ops = false) f [] (Some w).
Proof.
  intros Ho Hu Hn. destruct (g_new_ok R C HRC occ Ho) as (st0 & E0 & G0).
  assert (V0 : g_vor st0 = None /\ g_occ st0 = occ).
  { unfold g_new in E0. destruct (dm_new _ _); try discriminate. cbn [bind] in E0. injection E0 as <-. auto. }
  destruct V0 as [V0 O0].
  assert (K0 : K (true = true) (fun _ => Info inf no_cell false false) [] (g_vor st0)).
  { rewrite V0. constructor; [intros c _ X; discriminate X|intros s n _ _ _ _ _ (X & _); discriminate X|intros _ s _ []]. }
  rewrite <- O0 in Hn.
  destruct (g_run_ridge ops _ st0 _ _ _ _ _ _ G0 K0 Hu Hn) as (k & st & f & q & made & obst & clean & tame & E & G & HK & P & HC & Hu1 & Hn1).
  destruct Hu1 as [U1 U2]. destruct Hn1 as [N1 N2].
  destruct (g_step_ridge st made obst clean tame f q GUpdateObstacles G HK (conj U1 I) (conj N1 I)) as (k1 & st1 & f1 & q1 & E1 & G1 & K1 & Q1 & _ & O1).
  specialize (Q1 eq_refl). subst q1. cbn [is_unset is_edge negb] in G1, K1. rewrite andb_true_r in G1, K1. cbn iota in N2. rewrite <- O1 in N2.
  destruct (g_step_ridge st1 _ _ _ _ f1 [] GUpdateVoronoi G1 K1) as (k2 & st2 & f2 & q2 & E2 & G2 & K2 & _ & Q2 & O2); [exact U2|exact N2|].
  destruct (Q2 eq_refl) as [-> ->]. cbn [is_unset is_edge negb] in G2, K2. rewrite andb_true_r in G2, K2.
  destruct G2 as [X1 X2 X3 X4 X5 X6 X7 X8]. destruct U2 as [U2 _]. specialize (X4 U2).
  destruct (g_vor st2) as [w|] eqn:Ew; [|contradiction].
  exists (Nat.max k (Nat.max k1 k2)), st0, st2, f1, w. split; auto. split; [|split; [exact X1|split; [exact (jb_j _ _ _ _ X2)|split; [exact Ew|split; [|split]]]]].
  - intros fuel Hf. rewrite g_run_app, E by lia. cbn [bind]. unfold g_run. cbn [fold_res]. rewrite E1 by lia. cbn [bind]. rewrite E2 by lia. reflexivity.
  - intros c Hc. rewrite (X6 c Hc). cbn [obstacle_after]. rewrite P. reflexivity.
  - intros U. apply X7. rewrite HC, U. reflexivity.
  - apply (K_weaken (clean = true)); auto. intros U. rewrite HC, U. reflexivity.
Qed.
End Run.
End Ridge.

(** ** What the diagram reports *)
Local Open Scope R_scope.

Lemma sqrt_sqd a b : cell_distance a b * cell_distance a b = IZR (sqd a b).
Proof. unfold cell_distance. apply sqrt_sqrt. apply IZR_le. apply sqd_nonneg. Qed.

Lemma distance_triangle a b c : cell_distance a b <= cell_distance a c + cell_distance c b.
Proof. unfold cell_distance. fold (euclid a b) (euclid a c) (euclid c b). rewrite !euclid_dist. apply triangle. Qed.

Lemma distance_sym a b : cell_distance a b = cell_distance b a.
Proof. unfold cell_distance. now rewrite sqd_sym. Qed.

Lemma distance_nonneg a b : 0 <= cell_distance a b.
Proof. apply sqrt_pos. Qed.

Lemma touching_distance s n : touches s n -> cell_distance s n <= sqrt 2.
Proof.
  intros H. unfold cell_distance. apply sqrt_le_1_alt. apply IZR_le. unfold touches in H. unfold sqd. set (x := (row s - row n)%Z) in *. set (y := (col s - col n)%Z) in *. clearbody x y.
  assert (-1 <= x <= 1)%Z by lia. assert (-1 <= y <= 1)%Z by lia. nia.
Qed.

(** On a border the two distances differ by at most the diagonal of a cell. *)
Lemma border_distance s n a b : touches s n -> border s n a b -> cell_distance s a <= cell_distance s b <= cell_distance s a + sqrt 2.
Proof.
  intros Ht (_ & _ & H1 & H2 & H3). split; [apply sqrt_le_1_alt, IZR_le, H1|].
  pose proof (touching_distance s n Ht) as T. pose proof (distance_triangle s b n) as T1. pose proof (distance_triangle n a s) as T2. rewrite (distance_sym n s) in T2.
  destruct (Rle_or_lt (cell_distance s b) (cell_distance s a + sqrt 2)) as [|L]; auto. exfalso.
  assert (E : (sqd s b + sqd n b <= sqd s a + sqd n a)%Z) by lia. apply IZR_le in E. rewrite !plus_IZR, <- !sqrt_sqd in E.
  pose proof (distance_nonneg s a). pose proof (distance_nonneg n a).
  set (x := cell_distance s b) in *. set (y := cell_distance s a) in *. set (p := cell_distance n b) in *. set (r := cell_distance n a) in *.
  set (e := cell_distance s n) in *. clearbody x y p r e. assert (y < p) by lra. assert (r < x) by lra.
  pose proof (Rmult_le_0_lt_compat y p y p ltac:(lra) ltac:(lra) ltac:(lra) ltac:(lra)).
  pose proof (Rmult_le_0_lt_compat r x r x ltac:(lra) ltac:(lra) ltac:(lra) ltac:(lra)). lra.
Qed.
Local Close Scope R_scope.

Section Api.
Variables R C : Z.
Hypothesis HRC : representable R C.
Variables top topv : nat -> list (cell * Z) -> nat.
Hypothesis Htop : priority top.
Hypothesis Htopv : priority topv.
Variable number : cell -> Z.
Notation ins := (inside R C).

Lemma edge_iff w c : vok R C (Some w) -> ins c -> (vedge (Some w) c <-> nearest_obstacle w c = Ok c).
Proof.
  intros (f & q & (_ & _ & _ & A & _) & _) Hc. unfold vedge, nearest_obstacle. rewrite (A c Hc). cbn [rmap bind]. split.
  - intros (i & [= <-] & E). congruence.
  - intros [= E]. eauto.
Qed.

Lemma ridge_api occ ops : sized R C occ -> well_used R C false (ops ++ [GUpdateObstacles; GUpdateVoronoi]) ->
  numbered R C number false occ (fun _ => false) (ops ++ [GUpdateObstacles; GUpdateVoronoi]) ->
  reaches top topv occ (ops ++ [GUpdateObstacles; GUpdateVoronoi]) (fun st => exists w, g_vor st = Some w /\
    (forall s n a b, ins s -> ins n -> touches s n -> ins a -> ins b ->
       nearest_obstacle (g_obs st) s = Ok a -> nearest_obstacle (g_obs st) n = Ok b ->
       number a <> number b -> far a b -> 1 < sqd s a \/ 1 < sqd n b ->
       sqd s b - sqd s a <= sqd n a - sqd n b -> nearest_obstacle w s = Ok s) /\
    (existsb is_unset ops = false -> forall s, ins s -> nearest_obstacle w s = Ok s ->
       exists n a b, ins n /\ touches s n /\ ins a /\ ins b /\ nearest_obstacle (g_obs st) s = Ok a /\ obstacle ops a /\ obstacle ops b /\
         number a <> number b /\ border s n a b) /\
    (existsb is_unset ops = false -> forall s a, ins s -> ins a -> nearest_obstacle (g_obs st) s = Ok a -> obstacle ops a) /\
    (forall s n a, ins s -> ins n -> touches s n -> ins a -> nearest_obstacle (g_obs st) s = Ok a ->
       exists b, ins b /\ nearest_obstacle (g_obs st) n = Ok b)).
Proof.
  intros Hz Hu Hn. pose proof (occ_mk R C HRC occ Hz) as Ho.
  destruct (ridge_diagram R C HRC number top topv (priority_lt top Htop) (priority_lt topv Htopv) occ ops Ho Hu Hn)
    as (k & st0 & st & f & w & E0 & E & Hh & HJ & Ew & Hob & Hns & [KP KC KS]).
  exists k, st0, st. split; auto. split; auto. exists w. split; auto.
  assert (Vw : vok R C (Some w)).
  { destruct (history R C HRC top topv (priority_lt top Htop) (priority_lt topv Htopv) occ (ops ++ [GUpdateObstacles; GUpdateVoronoi]) [] Ho) as (k' & s0 & s' & f' & q' & made & F0 & F & G & _).
    { now rewrite app_nil_r. }
    assert (s0 = st0) as -> by congruence. specialize (F (Nat.max k k') ltac:(lia)). rewrite E in F by lia. assert (s' = st) as -> by congruence.
    rewrite <- Ew. now destruct G. }
  assert (Pv : forall c, ins c -> valid (f c) -> i_proc (f c) = false).
  { intros c Hc V. destruct (i_proc (f c)) eqn:X; auto. destruct (KP c Hc X) as [[]|]; contradiction. }
  split; [|split; [|split]].
  - intros s n a b Hs Hin Ht Ha Hb Na Nb Nn Hf Hd Hst. apply (edge_iff w s Vw Hs).
    apply (holds_near R C _ f [] s a Hh Hs) in Na. apply (holds_near R C _ f [] n b Hh Hin) in Nb.
    assert (Vs : valid (f s)) by (unfold valid; rewrite Na; now apply (ins_valid R C)).
    assert (Vn : valid (f n)) by (unfold valid; rewrite Nb; now apply (ins_valid R C)).
    destruct (settled_local R C HRC f HJ s n Hs Hin Ht Vs) as [_ L1]. destruct (settled_local R C HRC f HJ n s Hin Hs (touches_sym number s n Ht) Vn) as [_ L2].
    destruct (obst_dist R C f HJ s Hs Vs) as [_ D1]. destruct (obst_dist R C f HJ n Hin Vn) as [_ D2].
    rewrite Na, Nb in *. rewrite (sqd_sym a n) in L1. rewrite (sqd_sym b s) in L2.
    apply (KC s n); auto. unfold seen. rewrite Na, Nb. split; auto. split; auto. split; auto. unfold border. do 2 (split; [assumption|]). lia.
  - intros U s Hs Es. apply (edge_iff w s Vw Hs) in Es. destruct (KS U s Hs Es) as [(o & O1 & O2) W].
    assert (Vs : valid (f s)).
    { apply (settled_all R C HRC f HJ); auto. exists o. split; auto. apply (is_obst_valid R C f); auto. }
    destruct (W (Pv s Hs Vs)) as (n & b & W1 & W2 & W3 & W4 & W5 & W6). destruct (Hns U s Hs Vs) as [G1 G2].
    exists n, (i_obst (f s)), b. split; auto. split; auto. split; auto. split; auto. split; [now apply (holds_near R C _ f [] s)|].
    split; [now apply Hob|]. split; [now apply Hob|]. auto.
  - intros U s a Hs Ha Na. apply (holds_near R C _ f [] s a Hh Hs) in Na.
    assert (Vs : valid (f s)) by (unfold valid; rewrite Na; now apply (ins_valid R C)).
    destruct (Hns U s Hs Vs) as [_ G]. rewrite Na in G. now apply Hob.
  - intros s n a Hs Hin Ht Ha Na. apply (holds_near R C _ f [] s a Hh Hs) in Na.
    assert (Vs : valid (f s)) by (unfold valid; rewrite Na; now apply (ins_valid R C)).
    destruct (settled_local R C HRC f HJ s n Hs Hin Ht Vs) as [Vn _]. destruct (obst_dist R C f HJ n Hin Vn) as [Hb _].
    exists (i_obst (f n)). split; auto. now apply (holds_near R C _ f [] n).
Qed.

Lemma near_one s a : sqd s a <= 1 ->
  -1 <= row s - row a <= 1 /\ -1 <= col s - col a <= 1 /\ (row s = row a \/ col s = col a).
Proof.
  unfold sqd. intros H. set (x := row s - row a) in *. set (y := col s - col a) in *.
  assert (-1 <= x <= 1) by nia. assert (-1 <= y <= 1) by nia. split; auto. split; auto.
  destruct (Z.eq_dec x 0) as [E|E]; [left; lia|]. destruct (Z.eq_dec y 0) as [F|F]; [right; lia|]. exfalso. nia.
Qed.

Lemma wide_gap s n a b : touches s n -> 10 < sqd a b -> far a b /\ (1 < sqd s a \/ 1 < sqd n b).
Proof.
  intros Ht Hg. split.
  - unfold far. destruct (Z_le_gt_dec (Z.abs (row a - row b)) 1) as [A|A]; [|lia]. destruct (Z_le_gt_dec (Z.abs (col a - col b)) 1) as [B|B]; [|lia].
    exfalso. unfold sqd in Hg. assert (-1 <= row a - row b <= 1) by lia. assert (-1 <= col a - col b <= 1) by lia. nia.
  - destruct (Z_le_gt_dec (sqd s a) 1) as [A|A]; [|lia]. destruct (Z_le_gt_dec (sqd n b) 1) as [B|B]; [|lia]. exfalso.
    apply near_one in A. apply near_one in B. unfold touches in Ht. unfold sqd in Hg.
    set (x := row a - row b) in *. set (y := col a - col b) in *.
    assert (X : -3 <= x <= 3 /\ -3 <= y <= 3 /\ (Z.abs x <= 2 \/ Z.abs y <= 1) /\ (Z.abs y <= 2 \/ Z.abs x <= 1)) by lia. clearbody x y.
    assert (x * x = Z.abs x * Z.abs x) as X1 by nia. assert (y * y = Z.abs y * Z.abs y) as X2 by nia.
    destruct X as (X3 & X4 & X5 & X6). rewrite X1, X2 in Hg. assert (0 <= Z.abs x <= 3) by lia. assert (0 <= Z.abs y <= 3) by lia. nia.
Qed.

Lemma separates_api occ : sized R C occ -> forall ops, well_used R C false (ops ++ [GUpdateObstacles; GUpdateVoronoi]) ->
  numbered R C number false occ (fun _ => false) (ops ++ [GUpdateObstacles; GUpdateVoronoi]) ->
  existsb is_unset ops = false ->
  (forall a b, ins a -> ins b -> obstacle ops a -> obstacle ops b -> number a <> number b -> 10 < sqd a b) ->
  reaches top topv occ (ops ++ [GUpdateObstacles; GUpdateVoronoi]) (fun st => exists w, g_vor st = Some w /\
    forall p s e a b, walk R C s p e -> ins a -> ins b -> nearest_obstacle (g_obs st) s = Ok a -> nearest_obstacle (g_obs st) e = Ok b ->
      number a <> number b -> exists c, In c (s :: p) /\ nearest_obstacle w c = Ok c).
Proof.
  intros Hz ops Hu Hn U Hg. destruct (ridge_api occ ops Hz Hu Hn) as (k & st0 & st & E0 & E & w & Ew & A & _ & B & D).
  exists k, st0, st. split; auto. split; auto. exists w. split; auto.
  induction p as [|n p IH]; intros s e a b Hw Ha Hb Na Nb Nn; cbn [walk] in Hw.
  - destruct Hw as [Hs ->]. congruence.
  - destruct Hw as (Hs & Ht & Hw).
    assert (Hin : ins n) by (destruct p; cbn [walk] in Hw; tauto).
    destruct (D s n a Hs Hin Ht Ha Na) as (b' & Hb' & Nb').
    destruct (Z.eq_dec (number a) (number b')) as [Eq|Ne].
    + destruct (IH n e b' b Hw Hb' Hb Nb' Nb ltac:(congruence)) as (c & I1 & I2). exists c. split; auto. now right.
    + pose proof (Hg a b' Ha Hb' (B U s a Hs Ha Na) (B U n b' Hin Hb' Nb') Ne) as G. destruct (wide_gap s n a b' Ht G) as [F1 F2].
      destruct (Z_le_gt_dec (sqd s b' - sqd s a) (sqd n a - sqd n b')) as [L|L].
      * exists s. split; [now left|]. now apply (A s n a b').
      * exists n. split; [right; now left|]. apply (A n s b' a); auto.
        -- exact (touches_sym number s n Ht).
        -- exact (far_sym number a b' F1).
        -- tauto.
        -- lia.
Qed.
End Api.

(** ** Deciding [numbered] for the examples *)
Definition all_cells (R C : Z) : list cell :=
  map (fun i => Cell (Z.of_nat i / C) (Z.of_nat i mod C)) (seq 0 (Z.to_nat (R * C))).

Lemma all_cells_in R C c : inside R C c -> In c (all_cells R C).
Proof.
  intros [Hr Hc]. unfold all_cells. apply in_map_iff. exists (Z.to_nat (row c * C + col c)).
  assert (H : 0 <= row c * C + col c < R * C) by nia. split.
  - rewrite Z2Nat.id by lia. destruct c as [r k]. cbn [row col] in *. f_equal.
    + symmetry. apply (Z.div_unique _ _ _ k); lia.
    + symmetry. apply (Z.mod_unique _ _ r); lia.
  - apply in_seq. lia.
Qed.

Definition reads (occ : grid Z) (c : cell) (z : Z) : bool := match grid_get occ c with Ok y => y =? z | _ => false end.
Lemma reads_iff occ c z : reads occ c z = true <-> grid_get occ c = Ok z.
Proof.
  unfold reads. destruct (grid_get occ c) as [y| | |]; try (split; discriminate). rewrite Z.eqb_eq. split; [now intros ->|now intros [= ->]].
Qed.

Fixpoint numberedb (R C : Z) (number : cell -> Z) (made : bool) (occ : grid Z) (old : cell -> bool) (ops : list gop) : bool :=
  match ops with
  | [] => true
  | o :: r =>
      match o with
      | GUpdateObstacles => andb made (forallb (fun c => if old c then reads occ c (number c)
          else forallb (fun d => negb (andb (old d) (reads occ c (number d)))) (all_cells R C)) (all_cells R C))
      | GSetEdge _ | GUnsetEdge _ => false
      | _ => true
      end &&
      numberedb R C number (match o with GVoronoi => true | _ => made end) (match o with GOcc g => g | _ => occ end)
        (fun c => obstacle_after (old c) [o] c) r
  end.

Lemma numberedb_ok R C number ops : forall made occ old, numberedb R C number made occ old ops = true -> numbered R C number made occ old ops.
Proof.
  induction ops as [|o r IH]; intros made occ old H; cbn [numbered numberedb] in *; auto.
  apply andb_prop in H as [H1 H2]. split; [|now apply IH]. clear IH H2. destruct o; auto; try discriminate H1.
  apply andb_prop in H1 as [H1 H2]. split; auto. intros c Hc. rewrite forallb_forall in H2. specialize (H2 c (all_cells_in R C c Hc)). split.
  - intros E. rewrite E in H2. now apply reads_iff.
  - intros E d Hd Ed G. rewrite E in H2. rewrite forallb_forall in H2. specialize (H2 d (all_cells_in R C d Hd)). apply reads_iff in G.
    now rewrite Ed, G in H2.
Qed.

Lemma cells_ok R C (P : cell -> bool) : forallb P (all_cells R C) = true -> forall c, inside R C c -> P c = true.
Proof. intros H c Hc. rewrite forallb_forall in H. apply H. now apply all_cells_in. Qed.
