(** Last steps and data of the examples in PropCell. *)
From Coq Require Import List Arith Lia Bool ZArith QArith Reals Lra.
From Verif Require Import Base Num MeshM SplineM InterpM CellM SpecMesh SpecSpline SpecSplineObj SpecInterp MeshProofs
  SplineProofs EvalProofs SafeProofs SplineFinal InterpFinal CellProofs CellTop CellFinal PropSplineEx PropInterpEx.
Import ListNotations.
Open Scope R_scope.

Lemma cell_any {T} (o : ops T) on s xs hints orders :
  divides o -> wf_spline s -> (1 <= sp_dim s)%nat -> length xs = sp_dim s -> hints_ok s hints -> length orders = sp_dim s ->
  (forall d, (d < sp_dim s)%nat -> per_of s d = true -> length (knot_of s d) = (num_of s d + 2 * sp_order s + 1)%nat) ->
  exists s', load_cells o on s (sp_ctrl s) = Ok s' /\
    ((exists v, cell_eval o on s' (combine xs hints) = Ok v) \/ cell_eval o on s' (combine xs hints) = Fault DivByZero) /\
    cell_derivative_at o on s' (combine (combine xs hints) orders) =
      spline_derivative_at o on s (combine (combine xs hints) orders).
Proof.
  intros Ho W HD Hl [H1 H2] Hlo HK. destruct (generate_cells_ok o on s W HD) as (c & Ec & _).
  exists (load_ctrl s c). unfold load_cells. rewrite Ec. split; [reflexivity|].
  assert (Hc : length (combine xs hints) = sp_dim s) by (rewrite combine_length; lia).
  assert (Hh : forall d, (d < sp_dim s)%nat -> (sp_order s <= snd (nth d (combine xs hints) (o0 o, 0)) <= last_of s d)%nat).
  { intros d Hd. rewrite combine_nth by lia. apply H2; auto. }
  assert (HR : reaches o s (combine xs hints)).
  { intros iters Ei d Hd Ep. pose proof (get_knot_iters_post _ o (divides_quiet o Ho) s _ W Hc Hh) as P.
    rewrite Ei in P. destruct P as [_ P]. specialize (P d Hd). unfold last_of in P. rewrite (HK d Hd Ep) in P.
    pose proof (wf_num _ W d Hd) as Hn. rewrite Ep in Hn. pose proof (wf_len _ W d Hd) as Hln. rewrite (HK d Hd Ep) in Hln. lia. }
  split.
  - apply post_div. apply cell_eval_safe; auto using divides_quiet.
  - apply (cell_derivative_eq o on _ (divides_quiet o Ho)); auto.
    + rewrite combine_length. lia.
    + intros d Hd. rewrite combine_nth by lia. cbn [fst]. auto.
    + replace (map fst (combine (combine xs hints) orders)) with (combine xs hints); auto.
      clear -Hc Hlo. rewrite <- Hlo in Hc. clear Hlo. revert orders Hc. induction (combine xs hints) as [|a l IH]; intros [|b l']; cbn; try discriminate; auto.
      intros E. f_equal. apply IH. lia.
Qed.

(** Examples. *)
Definition cells1 {T} (i : Z -> T) : mesh T := mkMesh [6%nat] (map i [1; 3; 2; 5; 4; 1]%Z).
Definition cells2 {T} (i : Z -> T) : mesh T :=
  mkMesh [5; 6]%nat (map i [1; 4; 1; 5; 9; 1;  2; 6; 5; 3; 5; 2;  8; 9; 7; 9; 3; 8;  2; 3; 8; 4; 6; 2;  1; 4; 1; 5; 9; 1]%Z).
Definition cell_evals (r : res (interp Q)) (pts : list (list Q)) : res (list Q) :=
  g <- r ;; mapM (fun x => v <- cell_interp_eval Qops true g x ;; Ok (Qred v)) pts.

Lemma cell_witness : exists g gc,
  interp_make Qops true false 2 [true] (cells1 inject_Z) [Uniform 0 5]%Q = Ok g /\
  cell_interp_make Qops true false 2 [true] (cells1 inject_Z) [Uniform 0 5]%Q = Ok gc /\
  (exists v, interp_eval Qops g [-11 # 2]%Q = Ok v) /\ cell_interp_eval Qops true gc [-11 # 2]%Q = Fault OutOfBounds.
Proof.
  eexists. eexists. split; [vm_compute; reflexivity|]. split; [vm_compute; reflexivity|].
  split; [eexists; vm_compute; reflexivity|vm_compute; reflexivity].
Qed.

(** At the grid point (1, 1) with data value 6. *)
Lemma proxy_witness : exists t g gc,
  templ_make Qops true false 2 [true; true] (m_dims (cells2 inject_Z)) [Uniform 0 4; Uniform 0 5]%Q = Ok t /\
  interpolate Qops true false t (cells2 inject_Z) = Ok g /\
  cell_interpolate Qops true false t (cells2 inject_Z) = Ok gc /\
  (v <- interp_eval Qops g [1; 1]%Q ;; Ok (Qred v)) = Ok 6%Q /\
  (pr <- templ_eval_proxy Qops t [1; 1]%Q ;; v <- use_proxy Qops pr gc ;; Ok (Qred v)) = Ok 5%Q /\
  (pr <- templ_eval_proxy Qops t [5#2; 7#3]%Q ;; use_proxy Qops pr gc) = Fault OutOfBounds.
Proof.
  eexists. eexists. eexists. split; [vm_compute; reflexivity|]. split; [vm_compute; reflexivity|]. split; [vm_compute; reflexivity|].
  split; [vm_compute; reflexivity|]. split; vm_compute; reflexivity.
Qed.

(** The range of an equally spaced periodic dimension of even order starts
    half a step before the first point. *)
Lemma ex_off : off_period [false; true] [(0, 4); (- (1 / 2), 7 / 2)] [3; -2].
Proof.
  intros d Hd Ep. destruct d as [|[|d]]; cbn in *; try discriminate; try lia. right. intros m E.
  assert (H : IZR m * 8 = -3) by lra. rewrite <- mult_IZR in H. apply eq_IZR in H. lia.
Qed.

Lemma ex_cell : exists t g, templ_make Rops true false 3 [false; true] gdims (gx IZR) = Ok t /\
  interpolate Rops true false t (gdata IZR) = Ok g.
Proof.
  destruct (made 3 true true (gdata IZR)) as (g & E); [lia|reflexivity|reflexivity|].
  unfold interp_make in E. change (m_dims (gdata IZR)) with gdims in E. apply bind_Ok in E as (t & Et & E).
  unfold interpolate_move in E. apply bind_Ok in E as (r & E & _). apply bind_Ok in E as (c & Ec & _).
  exists t, (set_ctrl (tp_base t) c). split; auto. unfold interpolate. rewrite Ec. reflexivity.
Qed.

Lemma ex_countable : countable_point false [false; true] gdims (gx IZR) [7; -1].
Proof. apply countable_gx. cbn. lra. Qed.
