(** Construction of the knots and matrices of an interpolation template. *)
From Coq Require Import List Arith Lia Bool ZArith Reals Lra.
From Verif Require Import Base Num MeshM SpecMesh MeshProofs ProgM BandM LUM SplineM InterpM.
From Verif Require Import SumR DenseLU SpecBand BandProofs LUProofs LUConv SpecSpline SpecSplineObj SplineProofs SpecInterp KnotProofs KnotShape CoefProofs SolverProofs SolveProofs.
Import ListNotations.
Open Scope R_scope.

Definition is_uniform (r : xrange R) : bool := match r with Uniform _ _ => true | Points _ => false end.

(** Knots of a dimension with [N] distinct points at [x]. *)
Definition knots_for (p : nat) (per : bool) (N : nat) (x : nat -> R) : list R :=
  if per then map (per_knot p N (x N - x 0%nat) x) (seq 0 (N + 2 * p + 1 + (1 - p mod 2)))
  else map (ap_knot p N x) (seq 0 (N + p + 1)).

(** Data coordinates of a dimension. *)
Definition gridx (nd per : bool) (n : nat) (r : xrange R) : nat -> R := grid_of r (coords_num nd per n).

Section Dim.
Variables (on nd : bool) (p : nat) (per : bool) (n : nat) (r : xrange R).
Hypothesis G : good_dim nd p per n r.
Let N := distinct nd per n.
Let x := gridx nd per n r.
Let K := knots_for p per N x.

Lemma grid_increasing : increasing (coords_num nd per n) x.
Proof.
  destruct G as (G1 & G2 & G3). unfold x, gridx. destruct r as [a b|l].
  - apply uniform_increasing; auto.
  - destruct G3 as (G3 & G4 & _). rewrite <- G3. exact G4.
Qed.

Lemma n_eq : n = (N + (if per && negb nd then 1 else 0))%nat.
Proof. destruct G as (G1 & G2 & G3). unfold N, distinct in *. destruct per, nd; cbn [andb negb] in *; lia. Qed.

Lemma N_pos : (0 < N)%nat.
Proof. destruct G. fold N in H. lia. Qed.

Lemma uniform_P a b : r = Uniform a b -> per = true -> x N - x 0%nat = b - a.
Proof.
  intros Er E. unfold x, gridx, coords_num. rewrite Er. unfold grid_of. fold N. rewrite E.
  replace (N + 1 - 1)%nat with N by lia. change (INR 0) with 0. field. apply not_0_INR. pose proof N_pos. lia.
Qed.

Lemma dim_uniform a b : r = Uniform a b ->
  uniform_knots Rops nd p per n a b = Ok (K, (b - a) / INR (coords_num nd per n - 1)).
Proof.
  intros Er. pose proof n_eq as En. destruct G as (G1 & G2 & G3). fold N in G1.
  assert (EC : coords_num nd per n = if per then (N + 1)%nat else n) by reflexivity.
  assert (Ex : x = grid_of (Uniform a b) (coords_num nd per n)) by (unfold x, gridx; rewrite Er; reflexivity).
  rewrite EC in *. unfold K, knots_for. destruct (Bool.bool_dec per true) as [Ep|Ep].
  - rewrite (uniform_P a b) by auto. rewrite Ep in *. rewrite Ex.
    replace n with (N + (if nd then 0 else 1))%nat by (rewrite En; destruct nd; auto).
    rewrite uniform_per by lia. replace (N + 1 - 1)%nat with N by lia. reflexivity.
  - apply not_true_is_false in Ep. rewrite Ep in *. cbn [andb] in En. assert (E : N = n) by lia. rewrite E in *.
    rewrite uniform_ap by lia. rewrite Ex. reflexivity.
Qed.

Lemma dim_points l : r = Points l -> points_knots Rops on nd p per n l = Ok (K, l).
Proof.
  intros Er. pose proof n_eq as En. pose proof N_pos as HN. destruct G as (G1 & G2 & G3). rewrite Er in G3. destruct G3 as (G3 & G4 & G5).
  unfold points_knots.
  assert (Ea : (length l =? n + (if nd && per then 1 else 0))%nat = true).
  { apply Nat.eqb_eq. rewrite G3. unfold coords_num. fold N. destruct per, nd; cbn [andb negb] in *; lia. }
  rewrite Ea. unfold intp_assert at 1. rewrite orb_true_r || idtac.
  assert (EB : (if per then periodic_points Rops p l else aperiodic_points Rops p l) = Ok (K, l)).
  { assert (EC : coords_num nd per n = if per then (N + 1)%nat else n) by reflexivity. fold N in G1.
    assert (Ex : x = fun i => nth i l 0) by (unfold x, gridx; rewrite Er; reflexivity).
    rewrite EC in *. unfold K, knots_for. destruct (Bool.bool_dec per true) as [Ep|Ep].
    - rewrite Ep in *. rewrite points_per by lia. rewrite Ex. replace (length l - 1)%nat with N by lia. reflexivity.
    - apply not_true_is_false in Ep. rewrite Ep in *. cbn [andb] in En. assert (E : N = n) by lia. rewrite E in *.
      rewrite points_ap by (auto; lia). rewrite G3, Ex. reflexivity. }
  destruct on; cbn [negb andb bind]; rewrite EB; cbn [bind]; rewrite usub_ok by lia; cbn [bind].
  - destruct (for_inv (fun _ (_ : unit) => True) 0 (length l - 1) tt (fun _ i =>
      b <- vget l (i + 1) ;; a <- vget l i ;; intp_assert true (olt Rops a b))) as ([] & E & _); auto; [lia| |].
    + intros i [] Hi _. rewrite (vget_ok _ _ 0) by lia. cbn [bind]. rewrite (vget_ok _ _ 0) by lia. cbn [bind].
      exists tt. split; auto. unfold intp_assert. cbn [olt Rops]. unfold Rltb.
      destruct (Rlt_dec (nth i l 0) (nth (i + 1) l 0)) as [L|L]; auto. exfalso. apply L. apply G4. lia.
    + rewrite E. reflexivity.
  - destruct (for_inv (fun _ (_ : unit) => True) 0 (length l - 1) tt (fun _ i =>
      b <- vget l (i + 1) ;; a <- vget l i ;; intp_assert false (olt Rops a b))) as ([] & E & _); auto; [lia| |].
    + intros i [] Hi _. rewrite (vget_ok _ _ 0) by lia. cbn [bind]. rewrite (vget_ok _ _ 0) by lia. cbn [bind].
      exists tt. split; auto.
    + rewrite E. reflexivity.
Qed.

Lemma K_length : length K = if per then (N + 2 * p + 1 + (1 - p mod 2))%nat else (N + p + 1)%nat.
Proof. unfold K, knots_for. destruct per; rewrite map_length, seq_length; auto. Qed.

Lemma dim_range s d kn : sp_order s = p -> (d < length (sp_knots s))%nat -> (d < length (sp_range s))%nat -> kn = K ->
  load_knots s d kn = Ok (mkSpline p (sp_per s) (upd (sp_knots s) d K) (sp_ctrl s)
    (upd (sp_range s) d (nth p K 0, nth (length K - p - (2 - p mod 2)) K 0))).
Proof.
  intros Ep Hd Hd2 ->. pose proof K_length as LK. pose proof N_pos as HN.
  assert (HL : (2 * p + 2 <= length K)%nat).
  { destruct G as (G1 & _). fold N in G1. rewrite LK. pose proof (Nat.mod_upper_bound p 2). destruct per; lia. }
  unfold load_knots. rewrite Ep. rewrite vset_ok by auto. cbn [bind]. rewrite (vget_ok _ _ 0) by lia. cbn [bind].
  pose proof (Nat.mod_upper_bound p 2 ltac:(lia)) as HM.
  rewrite usub_ok by lia. cbn [bind]. rewrite usub_ok by lia. cbn [bind]. rewrite (vget_ok _ _ 0) by lia. cbn [bind].
  rewrite vset_ok by auto. reflexivity.
Qed.
End Dim.

(** What the constructor leaves in the members for dimension [d]. *)
Record dim_built (nd : bool) (p : nat) (per : bool) (n : nat) (r : xrange R)
  (f : interp R) (coords : list (list R)) (d : nat) : Prop := {
  db_knots : nth d (sp_knots (if_spline f)) [] = knots_for p per (distinct nd per n) (gridx nd per n r);
  db_range : nth d (sp_range (if_spline f)) (0, 0) =
    (let K := knots_for p per (distinct nd per n) (gridx nd per n r) in
     (nth p K 0, nth (length K - p - (2 - p mod 2)) K 0));
  db_uniform : nth d (if_uniform f) false = is_uniform r;
  db_dx : forall a b, r = Uniform a b -> nth d (if_dx f) 0 = (b - a) / INR (coords_num nd per n - 1);
  db_coords : forall l, r = Points l -> nth d coords [] = l
}.

Record built (nd : bool) (p : nat) (per : list bool) (dims : list nat) (ranges : list (xrange R))
  (f : interp R) (coords : list (list R)) (D : nat) : Prop := {
  bt_order : sp_order (if_spline f) = p;
  bt_per : sp_per (if_spline f) = per;
  bt_knots : length (sp_knots (if_spline f)) = length per;
  bt_range : length (sp_range (if_spline f)) = length per;
  bt_uniform : length (if_uniform f) = length per;
  bt_dx : length (if_dx f) = length per;
  bt_coords : length coords = length per;
  bt_dim : forall d, (d < D)%nat ->
    dim_built nd p (nth d per false) (nth d dims 0%nat) (nth d ranges (Points [])) f coords d
}.

Lemma base_built on nd p per dims ranges : good_input nd p per dims ranges ->
  exists f coords, interp_base Rops on nd p per dims ranges = Ok (f, coords) /\
    built nd p per dims ranges f coords (length per).
Proof.
  intros (Hne & Hd & Hr & G). unfold interp_base, create_knots. cbn [if_spline spline_empty sp_per].
  set (body := fun (st : interp R * list (list R)) (d : nat) => _).
  set (init := (_, _) : interp R * list (list R)).
  destruct (for_inv (fun D st => built nd p per dims ranges (fst st) (snd st) D) 0 (length ranges) init body) as ([f coords] & E & B).
  - lia.
  - constructor; unfold init; cbn [fst snd if_spline spline_empty sp_order sp_per sp_knots sp_range if_uniform if_dx];
      auto; try (rewrite repeat_length; auto). intros; lia.
  - intros d [f coords] Hdl B. cbn [fst snd] in B. rewrite Hr in Hdl.
    pose proof (G d ltac:(lia)) as Gd. set (n := nth d dims 0%nat) in *. set (r := nth d ranges (Points [])) in *.
    set (pr := nth d per false) in *.
    unfold body. rewrite (vget_ok ranges _ (Points [])) by lia. cbn [bind]. fold r.
    rewrite (bt_per _ _ _ _ _ _ _ _ B), (bt_order _ _ _ _ _ _ _ _ B).
    rewrite (vget_ok per _ false) by lia. cbn [bind]. fold pr.
    rewrite (vget_ok dims _ 0%nat) by lia. cbn [bind]. fold n.
    pose proof (bt_knots _ _ _ _ _ _ _ _ B) as L1. pose proof (bt_range _ _ _ _ _ _ _ _ B) as L2.
    pose proof (bt_uniform _ _ _ _ _ _ _ _ B) as L3. pose proof (bt_dx _ _ _ _ _ _ _ _ B) as L4.
    pose proof (bt_coords _ _ _ _ _ _ _ _ B) as L5. pose proof (bt_dim _ _ _ _ _ _ _ _ B) as BD.
    set (K := knots_for p pr (distinct nd pr n) (gridx nd pr n r)).
    assert (old : forall f' coords', 
       (forall e, (e < d)%nat -> nth e (sp_knots (if_spline f')) [] = nth e (sp_knots (if_spline f)) [] /\
          nth e (sp_range (if_spline f')) (0, 0) = nth e (sp_range (if_spline f)) (0, 0) /\
          nth e (if_uniform f') false = nth e (if_uniform f) false /\
          nth e (if_dx f') 0 = nth e (if_dx f) 0 /\ nth e coords' [] = nth e coords []) ->
       forall e, (e < d)%nat -> dim_built nd p (nth e per false) (nth e dims 0%nat) (nth e ranges (Points [])) f' coords' e).
    { intros f' coords' H e He. destruct (H e He) as (E1 & E2 & E3 & E4 & E5). destruct (BD e He).
      constructor; intros; rewrite ?E1, ?E2, ?E3, ?E4, ?E5; auto. }
    destruct r as [a b|l] eqn:Er.
    + rewrite vset_ok by lia. cbn [bind]. rewrite (dim_uniform nd p pr n (Uniform a b)) by auto. cbn [bind].
      rewrite vset_ok by lia. cbn [bind].
      rewrite (dim_range nd p pr n (Uniform a b)) by (auto; try lia; apply (bt_order _ _ _ _ _ _ _ _ B)). cbn [bind].
      eexists. split; [reflexivity|]. constructor; cbn [fst snd if_spline sp_order sp_per sp_knots sp_range if_uniform if_dx];
        rewrite ?upd_length; auto.
      * apply (bt_per _ _ _ _ _ _ _ _ B).
      * intros e He. destruct (Nat.eq_dec e d) as [->|Hn].
        { fold pr n r. rewrite Er. constructor; cbn [if_spline sp_knots sp_range if_uniform if_dx is_uniform]; rewrite ?nth_upd.
          - rewrite L1. destruct (Nat.ltb_spec d (length per)); [|lia]. rewrite Nat.eqb_refl. reflexivity.
          - rewrite L2. destruct (Nat.ltb_spec d (length per)); [|lia]. rewrite Nat.eqb_refl. reflexivity.
          - rewrite L3. destruct (Nat.ltb_spec d (length per)); [|lia]. rewrite Nat.eqb_refl. reflexivity.
          - intros a' b' E. injection E as <- <-. rewrite L4. destruct (Nat.ltb_spec d (length per)); [|lia]. rewrite Nat.eqb_refl. reflexivity.
          - discriminate. }
        { apply old; [|lia]. intros e' He'. cbn [if_spline sp_knots sp_range if_uniform if_dx]. rewrite !nth_upd.
          destruct (Nat.eqb_spec e' d); [lia|]. rewrite ?andb_false_r, ?andb_false_l. auto. }
    + rewrite vset_ok by lia. cbn [bind]. rewrite (dim_points on nd p pr n (Points l)) by auto. cbn [bind].
      rewrite vset_ok by lia. cbn [bind].
      rewrite (dim_range nd p pr n (Points l)) by (auto; try lia; apply (bt_order _ _ _ _ _ _ _ _ B)). cbn [bind].
      eexists. split; [reflexivity|]. constructor; cbn [fst snd if_spline sp_order sp_per sp_knots sp_range if_uniform if_dx];
        rewrite ?upd_length; auto.
      * apply (bt_per _ _ _ _ _ _ _ _ B).
      * intros e He. destruct (Nat.eq_dec e d) as [->|Hn].
        { fold pr n r. rewrite Er. constructor; cbn [if_spline sp_knots sp_range if_uniform if_dx is_uniform]; rewrite ?nth_upd.
          - rewrite L1. destruct (Nat.ltb_spec d (length per)); [|lia]. rewrite Nat.eqb_refl. reflexivity.
          - rewrite L2. destruct (Nat.ltb_spec d (length per)); [|lia]. rewrite Nat.eqb_refl. reflexivity.
          - rewrite L3. destruct (Nat.ltb_spec d (length per)); [|lia]. rewrite Nat.eqb_refl. reflexivity.
          - discriminate.
          - intros l' E. injection E as <-. rewrite L5. destruct (Nat.ltb_spec d (length per)); [|lia]. rewrite Nat.eqb_refl. reflexivity. }
        { apply old; [|lia]. intros e' He'. cbn [if_spline sp_knots sp_range if_uniform if_dx]. rewrite !nth_upd.
          destruct (Nat.eqb_spec e' d); [lia|]. rewrite ?andb_false_r, ?andb_false_l. auto. }
  - exists f, coords. split; auto. rewrite Hr in B. exact B.
Qed.

(** Row of the coefficient matrix that belongs to data point [i]. *)
Definition rowof (p : nat) (per : bool) (N i : nat) : nat := if per then ((i + p / 2) mod N)%nat else i.

(** The collocation matrix of one dimension. *)
Definition col_good (p : nat) (per : bool) (N : nat) (x : nat -> R) (A : mat) : Prop :=
  let K := knots_for p per N x in
  forall i, (i < N)%nat -> exists k, segment (kn K) p (length K - p - 2) (x i) k /\
    forall j, (j < N)%nat -> A (rowof p per N i) j = Bmat (kn K) p N k (x i) j.

Section Matrix.
Variables (on nd : bool) (p : nat) (per : list bool) (dims : list nat) (ranges : list (xrange R)).
Variables (f : interp R) (coords : list (list R)).
Hypothesis GI : good_input nd p per dims ranges.
Hypothesis B : built nd p per dims ranges f coords (length per).

Lemma dim_matrix d dims' : (d < length per)%nat -> length dims' = length per ->
  let pr := nth d per false in let n := nth d dims 0%nat in let r := nth d ranges (Points []) in
  let N := distinct nd pr n in
  nth d dims' 0%nat = N ->
  exists m, coef_matrix Rops on f coords dims' d = Ok m /\ sinv pr N (bw_of p pr) m /\
    col_good p pr N (gridx nd pr n r) (sabs m).
Proof.
  intros Hd Hd' pr n r N EN. destruct GI as (_ & Ld & Lr & GG). pose proof (GG d Hd) as G. fold pr n r in G.
  destruct (bt_dim _ _ _ _ _ _ _ _ B d Hd) as [DK DR DU DX DC]. fold pr n r in DK, DR, DU, DX, DC. fold N in DK, DR.
  set (x := gridx nd pr n r) in *. set (K := knots_for p pr N x) in *.
  pose proof (grid_increasing nd p pr n r G) as Hx. fold x in Hx.
  pose proof (N_pos nd p pr n r G) as HN. fold N in HN.
  assert (G1 : (p + 1 <= N)%nat) by (destruct G; auto).
  assert (G2 : (2 <= coords_num nd pr n)%nat) by (destruct G as (_ & ? & _); auto).
  assert (EC : coords_num nd pr n = if pr then (N + 1)%nat else N).
  { unfold coords_num, N, distinct. destruct pr; auto. }
  destruct (coef_make_ok p pr N) as (sv & Esv & Isv & Zsv). { intros _. apply Nat.div_lt_upper_bound; lia. }
  unfold coef_matrix.
  assert (V1 : vget (sp_per (if_spline f)) d = Ok pr).
  { rewrite (bt_per _ _ _ _ _ _ _ _ B). apply vget_ok. auto. }
  assert (V2 : vget (sp_knots (if_spline f)) d = Ok K).
  { rewrite (vget_ok _ _ []) by (rewrite (bt_knots _ _ _ _ _ _ _ _ B); auto). rewrite DK. auto. }
  assert (V3 : vget (sp_range (if_spline f)) d = Ok (nth p K 0, nth (length K - p - (2 - p mod 2)) K 0)).
  { rewrite (vget_ok _ _ (0, 0)) by (rewrite (bt_range _ _ _ _ _ _ _ _ B); auto). rewrite DR. auto. }
  rewrite V1. cbn [bind].
  rewrite (vget_ok (if_uniform f) _ false) by (rewrite (bt_uniform _ _ _ _ _ _ _ _ B); auto). rewrite DU. cbn [bind].
  rewrite (vget_ok (if_dx f) _ 0) by (rewrite (bt_dx _ _ _ _ _ _ _ _ B); auto). cbn [bind].
  rewrite (vget_ok coords _ []) by (rewrite (bt_coords _ _ _ _ _ _ _ _ B); auto). cbn [bind].
  rewrite (vget_ok dims' _ 0%nat) by lia. rewrite EN. cbn [bind].
  rewrite (bt_order _ _ _ _ _ _ _ _ B).
  set (dx := nth d (if_dx f) 0) in *. set (c := nth d coords []) in *.
  assert (LK : length K = if pr then (N + 2 * p + 1 + (1 - p mod 2))%nat else (N + p + 1)%nat).
  { unfold K, knots_for. destruct pr; rewrite map_length, seq_length; auto. }
  destruct (Bool.bool_dec pr true) as [Ep|Ep].
  - (* periodic *)
    assert (EK : K = map (per_knot p N (x N - x 0%nat) x) (seq 0 (N + 2 * p + 1 + (1 - p mod 2)))).
    { unfold K, knots_for. rewrite Ep. auto. }
    assert (Hx' : increasing (N + 1) x) by (rewrite EC, Ep in Hx; auto).
    assert (Hu : is_uniform r = true -> 0 < dx /\ (forall i, x i = x 0%nat + INR i * dx) /\
      (forall i, per_knot p N (x N - x 0%nat) x i = x 0%nat + (INR i - INR p - (if Nat.even p then / 2 else 0)) * dx)).
    { intros U. destruct r as [a b|] eqn:Er; [|discriminate]. 
      assert (Edx : dx = (b - a) / INR N). { rewrite (DX a b) by auto. rewrite EC, Ep. do 2 f_equal. lia. }
      destruct G as (_ & _ & Gab).
      assert (Ex : x = grid_of (Uniform a b) (N + 1)). { unfold x, gridx. rewrite EC, Ep. auto. }
      assert (X0 : x 0%nat = a). { rewrite Ex. unfold grid_of. change (INR 0) with 0. ring. }
      split; [rewrite Edx; apply Rdiv_lt_0_compat; [lra|apply INR_pos; auto]|]. split.
      - intros i. rewrite X0, Ex, Edx. unfold grid_of. replace (N + 1 - 1)%nat with N by lia. auto.
      - intros i. replace (x N - x 0%nat) with (b - a).
        + rewrite X0, Ex, Edx. apply per_uniform. auto.
        + rewrite X0, Ex. unfold grid_of. replace (N + 1 - 1)%nat with N by lia. field. apply not_0_INR. lia. }
    assert (Hnu : is_uniform r = false -> length c = (N + 1)%nat /\ forall i, (i < N)%nat -> nth i c 0 = x i).
    { intros U. destruct r as [|l] eqn:Er; [discriminate|]. rewrite (DC l) by auto. destruct G as (_ & _ & Gl & _).
      rewrite EC, Ep in Gl. split; auto. }
    rewrite Ep in V1. rewrite Ep in Isv. rewrite Ep in Esv.
    destruct (per_cache (if_spline f) d p N x (is_uniform r) dx c) as (cache & Ec & Hc); auto.
    { apply (bt_order _ _ _ _ _ _ _ _ B). }
    { rewrite <- EK. auto. }
    rewrite Ec. cbn [bind]. rewrite Ep. rewrite Esv. cbn [bind].
    destruct (per_matrix on (if_spline f) d p N x (is_uniform r) dx c (nth p K 0, nth (length K - p - (2 - p mod 2)) K 0)) with (sv := sv) (cache := cache)
      as ([m vals] & E & I & HR); auto.
    { apply (bt_order _ _ _ _ _ _ _ _ B). }
    { rewrite <- EK. auto. }
    rewrite E. cbn [bind]. exists m. split; auto. cbn [fst] in *. split; auto.
    unfold col_good.
    intros i Hi. exists (i + p)%nat.
    replace (knots_for p true N x) with K by (unfold K; rewrite Ep; auto). split.
    + rewrite LK, Ep, EK. replace (N + 2 * p + 1 + (1 - p mod 2) - p - 2)%nat with (N + p - 1 + (1 - p mod 2))%nat by lia.
      apply per_seg; auto.
    + intros j Hj. unfold rowof. rewrite (HR i Hi j Hj). rewrite EK. reflexivity.
  - apply not_true_is_false in Ep.
    assert (EK : K = map (ap_knot p N x) (seq 0 (N + p + 1))).
    { unfold K, knots_for. rewrite Ep. auto. }
    assert (EC' : coords_num nd pr n = N) by (rewrite EC, Ep; auto). rewrite EC' in Hx, G2.
    assert (Hu : is_uniform r = true -> 0 < dx /\ (forall i, x i = x 0%nat + INR i * dx) /\
      (forall i, (p < i < N)%nat -> ap_knot p N x i = x 0%nat + (INR i - (INR p + 1) / 2) * dx)).
    { intros U. destruct r as [a b|] eqn:Er; [|discriminate]. 
      assert (Edx : dx = (b - a) / INR (N - 1)). { rewrite (DX a b) by auto. rewrite EC'. auto. }
      destruct G as (_ & _ & Gab).
      assert (Ex : x = grid_of (Uniform a b) N). { unfold x, gridx. rewrite EC'. auto. }
      assert (X0 : x 0%nat = a). { rewrite Ex. unfold grid_of. change (INR 0) with 0. ring. }
      split; [rewrite Edx; apply Rdiv_lt_0_compat; [lra|apply INR_pos; lia]|]. split.
      - intros i. rewrite X0, Ex, Edx. unfold grid_of. auto.
      - intros i Hi. rewrite X0, Ex, Edx. apply ap_uniform; auto. }
    assert (Hnu : is_uniform r = false -> (1 <= p)%nat /\ length c = N /\ forall i, (i < N)%nat -> nth i c 0 = x i).
    { intros U. destruct r as [|l] eqn:Er; [discriminate|]. rewrite (DC l) by auto. destruct G as (_ & _ & Gl & _ & Go).
      rewrite EC' in Gl. split; auto. }
    assert (Ec : coef_cache Rops (if_spline f) d (is_uniform r) dx = Ok []).
    { unfold coef_cache. rewrite V1, Ep. reflexivity. }
    rewrite Ec. cbn [bind]. rewrite Esv. cbn [bind]. rewrite Ep in V1, Isv |- *.
    assert (T0 : nth p K 0 = x 0%nat).
    { change (kn K p = x 0%nat). rewrite EK, kn_map by lia. apply (ap_lo p N x); lia. }
    destruct (ap_matrix on (if_spline f) d p N x (is_uniform r) dx c (nth p K 0, nth (length K - p - (2 - p mod 2)) K 0)) with (sv := sv) (cache := @nil R)
      as ([m vals] & E & I & HR); auto.
    { apply (bt_order _ _ _ _ _ _ _ _ B). }
    { rewrite <- EK. auto. }
    rewrite E. cbn [bind]. exists m. split; auto. cbn [fst] in *. split; auto.
    unfold col_good. intros i Hi. destruct (HR i Hi) as (k & Hk & HB). exists k.
    replace (knots_for p false N x) with K by (unfold K; rewrite Ep; auto). split.
    + rewrite LK, Ep, EK. replace (N + p + 1 - p - 2)%nat with (N - 1)%nat by lia. auto.
    + intros j Hj. unfold rowof. rewrite EK. auto.
Qed.
End Matrix.

Definition ddims (nd : bool) (per : list bool) (dims : list nat) : list nat :=
  map (fun d => distinct nd (nth d per false) (nth d dims 0%nat)) (seq 0 (length per)).

Lemma ddims_length nd per dims : length (ddims nd per dims) = length per.
Proof. unfold ddims. rewrite map_length, seq_length. auto. Qed.

Lemma map_seq_nth {A} (g : nat -> A) n d a : (d < n)%nat -> nth d (map g (seq 0 n)) a = g d.
Proof.
  intros H. rewrite (nth_indep _ a (g 0%nat)) by (rewrite map_length, seq_length; auto).
  rewrite map_nth, seq_nth by auto. reflexivity.
Qed.

Lemma ddims_nth nd per dims d : (d < length per)%nat ->
  nth d (ddims nd per dims) 0%nat = distinct nd (nth d per false) (nth d dims 0%nat).
Proof. intros. unfold ddims. apply (map_seq_nth (fun d => distinct nd (nth d per false) (nth d dims 0%nat))); auto. Qed.

Lemma ddims_nd per dims : length dims = length per -> ddims true per dims = dims.
Proof.
  intros H. apply (nth_ext' _ _ 0%nat).
  - rewrite ddims_length; auto.
  - intros i Hi. rewrite ddims_length in Hi. rewrite ddims_nth by auto. unfold distinct. rewrite andb_false_r. auto.
Qed.

Lemma reduced_ok nd p per dims ranges : good_input nd p per dims ranges -> reduced_dims nd per dims = Ok (ddims nd per dims).
Proof.
  intros (Hne & Ld & Lr & G). unfold reduced_dims. destruct nd.
  - rewrite ddims_nd; auto.
  - apply (mapM_ok_nth _ _ _ 0%nat 0%nat).
    + rewrite ddims_length, seq_length; auto.
    + rewrite seq_length. intros d Hd. rewrite seq_nth by auto. rewrite Nat.add_0_l.
      rewrite (vget_ok _ _ 0%nat) by lia. cbn [bind]. rewrite (vget_ok _ _ false) by lia. cbn [bind].
      rewrite ddims_nth by auto. destruct (G d Hd) as (G1 & _). unfold distinct in *.
      destruct (nth d per false); cbn [andb negb] in *; rewrite usub_ok by lia; f_equal; lia.
Qed.

Definition mat_at (mats : list mat) d : mat := nth d mats (fun _ _ => 0).

(** Everything about the template constructor. *)
Lemma templ_spec on nd p per dims ranges : good_input nd p per dims ranges ->
  exists f coords mats, built nd p per dims ranges f coords (length per) /\ length mats = length per /\
    (forall d, (d < length per)%nat ->
       col_good p (nth d per false) (nth d (ddims nd per dims) 0%nat)
         (gridx nd (nth d per false) (nth d dims 0%nat) (nth d ranges (Points []))) (mat_at mats d)) /\
    (forall t, templ_make Rops on nd p per dims ranges = Ok t ->
       tp_base t = f /\ tp_coords t = coords /\ tp_dims t = ddims nd per dims /\ length (tp_solvers t) = length per /\
       forall d, (d < length per)%nat -> lufac (sv_at (tp_solvers t) d) (nth d (ddims nd per dims) 0%nat) (mat_at mats d)) /\
    ((forall d, (d < length per)%nat -> pivots_ok (mat_at mats d) (nth d (ddims nd per dims) 0%nat)) ->
       exists t, templ_make Rops on nd p per dims ranges = Ok t).
Proof.
  intros GI. destruct (base_built on nd p per dims ranges GI) as (f & coords & E & B).
  pose proof (reduced_ok nd p per dims ranges GI) as ER.
  assert (DM : forall d, (d < length per)%nat -> exists m, coef_matrix Rops on f coords (ddims nd per dims) d = Ok m /\
     sinv (nth d per false) (nth d (ddims nd per dims) 0%nat) (bw_of p (nth d per false)) m /\
     col_good p (nth d per false) (nth d (ddims nd per dims) 0%nat)
         (gridx nd (nth d per false) (nth d dims 0%nat) (nth d ranges (Points []))) (sabs m)).
  { intros d Hd. rewrite ddims_nth by auto. apply (dim_matrix on nd p per dims ranges f coords GI B); auto.
    - apply ddims_length.
    - apply ddims_nth; auto. }
  set (ms := map (fun d => match coef_matrix Rops on f coords (ddims nd per dims) d with Ok m => m | _ => Aperiodic (band_make Rops 0 0 0) end) (seq 0 (length per))).
  exists f, coords, (map sabs ms).
  assert (Lms : length (map sabs ms) = length per) by (unfold ms; rewrite !map_length, seq_length; auto).
  assert (NM : forall d, (d < length per)%nat -> exists m, coef_matrix Rops on f coords (ddims nd per dims) d = Ok m /\
     sinv (nth d per false) (nth d (ddims nd per dims) 0%nat) (bw_of p (nth d per false)) m /\ mat_at (map sabs ms) d = sabs m /\
     col_good p (nth d per false) (nth d (ddims nd per dims) 0%nat)
         (gridx nd (nth d per false) (nth d dims 0%nat) (nth d ranges (Points []))) (sabs m)).
  { intros d Hd. destruct (DM d Hd) as (m & E1 & E2 & E3). exists m. split; auto. split; auto. split; auto.
    unfold mat_at. rewrite (nth_indep _ _ (sabs (Aperiodic (band_make Rops 0 0 0)))) by lia. rewrite map_nth. f_equal.
    unfold ms. rewrite map_seq_nth by auto. rewrite E1. auto. }
  assert (PosN : forall d, (d < length per)%nat -> (p + 1 <= nth d (ddims nd per dims) 0)%nat).
  { intros d Hd. rewrite ddims_nth by auto. destruct GI as (_ & _ & _ & GG). destruct (GG d Hd); auto. }
  assert (BWp : forall d, (d < length per)%nat -> nth d per false = true -> (2 * bw_of p (nth d per false) <= nth d (ddims nd per dims) 0)%nat).
  { intros d Hd Ep. specialize (PosN d Hd). rewrite Ep. unfold bw_of. pose proof (half_cases p). lia. }
  unfold templ_make. rewrite E. cbn [bind]. rewrite ER. cbn [bind].
  split; auto. split; auto. split; [|split].
  - intros d Hd. destruct (NM d Hd) as (m & _ & _ & -> & H). auto.
  - intros t Ht. apply bind_Ok in Ht as (svs & Em & Et). injection Et as <-. cbn [tp_base tp_coords tp_dims tp_solvers].
    split; auto. split; auto. split; auto. pose proof (mapM_length _ _ _ Em) as L. rewrite seq_length in L. split; auto.
    intros d Hd. pose proof (mapM_nth _ _ _ d 0%nat (Aperiodic (band_make Rops 0 0 0)) Em ltac:(rewrite seq_length; auto)) as Ed.
    rewrite seq_nth in Ed by auto. cbn [Nat.add] in Ed. destruct (NM d Hd) as (m & E1 & E2 & -> & E4).
    rewrite E1 in Ed. cbn [bind] in Ed. eapply (factor_inv on (nth d per false) _ _ m); eauto.
    specialize (PosN d Hd). lia.
  - intros HP.
    assert (HF : forall d, (d < length per)%nat -> exists sv, (m <- coef_matrix Rops on f coords (ddims nd per dims) d ;; coef_factor Rops on m) = Ok sv).
    { intros d Hd. destruct (NM d Hd) as (m & E1 & E2 & E3 & E4). rewrite E1. cbn [bind].
      eapply (factor_ok on (nth d per false) _ _ m (mat_at (map sabs ms) d)); eauto.
      - specialize (PosN d Hd). lia.
      - intros. rewrite E3. auto. }
    rewrite (mapM_ok _ (fun d => match (m <- coef_matrix Rops on f coords (ddims nd per dims) d ;; coef_factor Rops on m) with
       Ok sv => sv | _ => Aperiodic (band_make Rops 0 0 0) end)).
    + cbn [bind]. eauto.
    + intros d Hd. apply in_seq in Hd. destruct (HF d ltac:(lia)) as (sv & Es). rewrite Es. auto.
Qed.

(** Non-periodic dimensions are always solvable. *)
Lemma col_good_pivots p N x A : increasing N x -> (p + 1 <= N)%nat -> (2 <= N)%nat -> col_good p false N x A -> pivots_ok A N.
Proof.
  intros Hx Hp Hn H. apply (ap_pivots p N x A Hx Hp Hn). intros i Hi. destruct (H i Hi) as (k & Hk & HB). exists k.
  unfold knots_for in Hk. rewrite map_length, seq_length in Hk. replace (N + p + 1 - p - 2)%nat with (N - 1)%nat in Hk by lia. split; auto.
Qed.
