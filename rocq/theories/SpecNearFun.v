(** Interpolation in doubles of inexact values of a function. *)
From Coq Require Import Reals List Bool Floats ZArith.
From Verif Require Import Base Num FloatM MeshM SpecMesh MeshProofs SplineM InterpM SpecInterp SpecRound SpecRoundInterp SpecNear.
Import ListNotations.
Local Open Scope R_scope.

(** The numbers in a mesh of doubles. *)
Definition real_data (f : mesh float) : mesh R := mkMesh (m_dims f) (map double_val (m_data f)).

(** The interpolation [g] has been computed in doubles, directly or by a
    template, from data [f] not exceeding [B], on grids [ls] that doubles
    represent exactly.  [K]: amplification of errors per dimension; the control
    points have not overflowed and the rounding errors are not amplified to
    the size of the data. *)
Record computed (on nd : bool) (order : nat) (per : list bool) (dims : list nat) (ls : list (list float)) (t : templ float)
  (M : nat) (G K B : R) (f : mesh float) (g : interp float) (ranges : list (xrange R)) : Prop := {
  cp_template : fit_template on nd order per dims ls t M G;
  cp_dims : m_dims f = dims;
  cp_mesh : wf_mesh f;
  cp_made : interpolate Fops on nd t f = Ok g \/ interp_make Fops on nd order per f (map (@Points float) ls) = Ok g;
  cp_twin : twin nd order per dims ls f ranges (real_data f);
  cp_data : forall a, In a (m_data f) -> Rabs (double_val a) <= B;
  cp_finite : forall a, In a (m_data (sp_ctrl (if_spline g))) -> double_finite a;
  cp_small : K ^ length per * (INR (length per) * (INR order + INR M * G) * powerRZ 2 (-49)) <= / 2;
  cp_scale : 2 * K ^ length per * (B + powerRZ 2 (-1031)) <= powerRZ 2 1000;
}.

(** The data are the values of [F] up to [eps]. *)
Definition nearly_sampled (nd : bool) (per : list bool) (dims : list nat) (ranges : list (xrange R)) (F : list R -> R) (f : mesh float) (eps : R) : Prop :=
  forall idx, valid dims idx -> Rabs (val_at (real_data f) idx - F (grid_point nd per dims ranges idx)) <= eps.

(** The part of the error that comes from rounding in [n] dimensions. *)
Definition rounding_part (order n M : nat) (G K B : R) : R :=
  (INR (roundings order n) * powerRZ 2 (-52) + K ^ n * (INR n * (INR order + INR M * G) * powerRZ 2 (-49))) * (2 * K ^ n * (B + powerRZ 2 (-1031))) +
  K ^ n * powerRZ 2 (-1031) + powerRZ 2 (-1034).
