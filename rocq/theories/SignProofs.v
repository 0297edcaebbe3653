(** The data path of the interpolation respects relations that its operations
    respect. *)
From Coq Require Import List Arith Lia Bool ZArith Floats SpecFloat.
From Verif Require Import Base Num FloatM MeshM ProgM BandM LUM SplineM InterpM SpecSign.
Import ListNotations.

Local Notation rrel := same_outcome.

Lemma rrel_bind {A A' B B'} (P : A -> A' -> Prop) (Q : B -> B' -> Prop) r r' f f' :
  rrel P r r' -> (forall a a', P a a' -> rrel Q (f a) (f' a')) -> rrel Q (bind r f) (bind r' f').
Proof. destruct r, r'; simpl; intros; try contradiction; auto. Qed.
Lemma rrel_same {A B B'} (Q : B -> B' -> Prop) (r : res A) f f' :
  (forall a, rrel Q (f a) (f' a)) -> rrel Q (bind r f) (bind r f').
Proof. destruct r; simpl; intros; auto. Qed.
Lemma foldM_rel {S S' I} (P : S -> S' -> Prop) (f : S -> I -> res S) f' l : 
  (forall i s s', P s s' -> rrel P (f s i) (f' s' i)) -> forall s s', P s s' -> rrel P (foldM f l s) (foldM f' l s').
Proof. intros H. induction l; intros s s' Hs; cbn [foldM]; [exact Hs|]. apply (rrel_bind P); auto. Qed.
Lemma for_rel {S S'} (P : S -> S' -> Prop) lo hi f f' s s' :
  P s s' -> (forall i s s', P s s' -> rrel P (f s i) (f' s' i)) -> rrel P (for_ lo hi s f) (for_ lo hi s' f').
Proof. intros. apply foldM_rel; auto. Qed.

Lemma Forall2_length {A B} (P : A -> B -> Prop) l l' : Forall2 P l l' -> length l = length l'.
Proof. intros H. induction H; simpl; auto. Qed.
Arguments Forall2_length {A B P l l'} _.
Lemma nth_error_rel {A B} (P : A -> B -> Prop) l l' i : Forall2 P l l' ->
  match nth_error l i, nth_error l' i with Some a, Some b => P a b | None, None => True | _, _ => False end.
Proof. intros H. revert i. induction H; intros [|i]; simpl; auto; apply IHForall2. Qed.
Lemma vget_rel {A B} (P : A -> B -> Prop) l l' i : Forall2 P l l' -> rrel P (vget l i) (vget l' i).
Proof. intros H. pose proof (nth_error_rel P l l' i H). unfold vget. destruct (nth_error l i), (nth_error l' i); simpl; auto. Qed.
Lemma upd_rel {A B} (P : A -> B -> Prop) l l' i a b : Forall2 P l l' -> P a b -> Forall2 P (upd l i a) (upd l' i b).
Proof. intros H Hab. revert i. induction H; intros [|i]; simpl; constructor; auto. Qed.
Lemma vset_rel {A B} (P : A -> B -> Prop) l l' i a b : Forall2 P l l' -> P a b -> rrel (Forall2 P) (vset l i a) (vset l' i b).
Proof. intros H Hab. unfold vset. rewrite (Forall2_length H). destruct (_ <? _); simpl; auto. apply upd_rel; auto. Qed.
Lemma repeat_rel {A B} (P : A -> B -> Prop) a b n : P a b -> Forall2 P (repeat a n) (repeat b n).
Proof. intros H. induction n; simpl; constructor; auto. Qed.

Section Rel.
Context {T : Type} (o : ops T) (on nd : bool) (R : T -> T -> Prop).
Hypothesis R0 : R (o0 o) (o0 o).
Hypothesis Radd : forall a a' b b', R a a' -> R b b' -> R (oadd o a b) (oadd o a' b').
Hypothesis Rsub : forall a a' b b', R a a' -> R b b' -> R (osub o a b) (osub o a' b').
Hypothesis Rmul : forall c b b', R b b' -> R (omul o c b) (omul o c b').
Hypothesis Rdiv : forall c a a', R a a' -> rrel R (odiv o a c) (odiv o a' c).

Definition mrel (m m' : mesh T) : Prop := m_dims m = m_dims m' /\ Forall2 R (m_data m) (m_data m').

(** ** Programs *)
Inductive prel {A : Type} (P : A -> A -> Prop) : prog T A -> prog T A -> Prop :=
| pr_ret a a' : P a a' -> prel P (Ret a) (Ret a')
| pr_rd l k k' : (forall v v', R v v' -> prel P (k v) (k' v')) -> prel P (Rd l k) (Rd l k')
| pr_wr l v v' k k' : R v v' -> prel P k k' -> prel P (Wr l v k) (Wr l v' k')
| pr_throw e : prel P (PThrow e) (PThrow e)
| pr_fault u : prel P (PFault u) (PFault u).
Lemma prel_bind {A B} (P : A -> A -> Prop) (Q : B -> B -> Prop) p p' f f' :
  prel P p p' -> (forall a a', P a a' -> prel Q (f a) (f' a')) -> prel Q (pbind p f) (pbind p' f').
Proof using. intros H Hf. induction H; cbn [pbind]; auto; constructor; auto. Qed.
Lemma prel_same {A B} (Q : B -> B -> Prop) (r : res A) f f' : (forall a, prel Q (f a) (f' a)) -> prel Q (pbind (plift r) f) (pbind (plift r) f').
Proof using. intros H. destruct r; cbn; auto; constructor. Qed.
Lemma prel_read {B} (Q : B -> B -> Prop) l f f' : (forall a a', R a a' -> prel Q (f a) (f' a')) -> prel Q (pbind (pread l) f) (pbind (pread l) f').
Proof using. intros H. cbn. constructor. auto. Qed.
Lemma prel_write l v v' : R v v' -> prel eq (pwrite l v) (pwrite l v').
Proof using. intros H. constructor; auto. constructor. auto. Qed.
Lemma prel_iter {I} (f : I -> prog T unit) f' l : (forall i, prel eq (f i) (f' i)) -> prel eq (piter f l) (piter f' l).
Proof using. intros H. induction l; cbn [piter]; [constructor; auto|]. apply (prel_bind eq); auto. Qed.
Lemma prel_for lo hi (f : nat -> prog T unit) f' : (forall i, prel eq (f i) (f' i)) -> prel eq (pfor lo hi f) (pfor lo hi f').
Proof using. apply prel_iter. Qed.
Lemma prel_down n (f : nat -> prog T unit) f' : (forall i, prel eq (f i) (f' i)) -> prel eq (pfor_down n f) (pfor_down n f').
Proof using. apply prel_iter. Qed.
Lemma prel_ret : prel eq (Ret tt) (Ret tt).
Proof using. constructor. auto. Qed.

Lemma run_rel {A} (P : A -> A -> Prop) p p' : prel P p p' -> forall m m', Forall2 (Forall2 R) m m' ->
  rrel (fun x x' => P (fst x) (fst x') /\ Forall2 (Forall2 R) (snd x) (snd x')) (run p m) (run p' m').
Proof using.
  intros H. induction H; intros m m' Hm; cbn [run].
  - cbn. auto.
  - apply (rrel_bind R); [|auto]. pose proof (nth_error_rel _ _ _ (fst l) Hm) as N. unfold mem_get. destruct (nth_error m (fst l)), (nth_error m' (fst l)); try contradiction; [|reflexivity]. apply vget_rel. auto.
  - apply (rrel_bind (Forall2 (Forall2 R))); [|auto]. pose proof (nth_error_rel _ _ _ (fst l) Hm) as N. unfold mem_set. destruct (nth_error m (fst l)), (nth_error m' (fst l)); try contradiction; [|reflexivity].
    apply (rrel_bind (Forall2 R)); [apply vset_rel; auto|]. intros a a' Ha. cbn. apply upd_rel; auto.
  - reflexivity.
  - reflexivity.
Qed.

(** ** Solving *)
Lemma sub_assign_rel iter a i j : prel eq (it_sub_assign o iter a i j) (it_sub_assign o iter a i j).
Proof using Rsub Rmul. unfold it_sub_assign. apply prel_read. intros xi xi' H1. apply prel_same. intros c. apply prel_read. intros xj xj' H2. apply prel_write. auto. Qed.
Lemma div_assign_rel iter a j : prel eq (it_div_assign o iter a j) (it_div_assign o iter a j).
Proof using Rdiv.
  unfold it_div_assign. apply prel_read. intros xi xi' H1. apply prel_same. intros c. pose proof (Rdiv c _ _ H1) as H.
  destruct (odiv o xi c), (odiv o xi' c); cbn in H |- *; try contradiction; subst; try constructor; auto. constructor; auto.
Qed.
Lemma band_solve_rel m iter : prel eq (band_solve o on m iter) (band_solve o on m iter).
Proof using Rsub Rmul Rdiv.
  unfold band_solve. apply (prel_bind eq).
  - apply prel_for. intros j. apply prel_for. intros i. apply sub_assign_rel.
  - intros _ _ _. apply prel_down. intros j. apply (prel_bind eq); [apply div_assign_rel|]. intros _ _ _. apply prel_for. intros i. apply sub_assign_rel.
Qed.
Lemma eband_solve_rel m iter : prel eq (eband_solve o on m iter) (eband_solve o on m iter).
Proof using Rsub Rmul Rdiv.
  unfold eband_solve. apply (prel_bind eq).
  - apply prel_for. intros j. apply (prel_bind eq); [apply prel_for; intros i; apply sub_assign_rel|]. intros _ _ _. apply prel_same. intros a.
    destruct (_ <? _); [|apply prel_ret]. apply prel_same. intros b. apply prel_for. intros i. apply sub_assign_rel.
  - intros _ _ _. apply prel_down. intros j. apply (prel_bind eq); [apply div_assign_rel|]. intros _ _ _.
    apply (prel_bind eq); [apply prel_for; intros i; apply sub_assign_rel|]. intros _ _ _. apply prel_same. intros a.
    destruct (_ <? _); [|apply prel_ret]. apply prel_same. intros b. apply prel_for. intros i. apply sub_assign_rel.
Qed.
Lemma solver_rel sv iter : prel eq (solver_solve o on sv iter) (solver_solve o on sv iter).
Proof using Rsub Rmul Rdiv. destruct sv; [apply band_solve_rel|apply eband_solve_rel]. Qed.
Lemma block_rel sv d od nd' lo hi : prel eq (solve_block o on sv d od nd' lo hi) (solve_block o on sv d od nd' lo hi).
Proof using Rsub Rmul Rdiv.
  unfold solve_block. do 2 (apply prel_same; intros ?). apply prel_for. intros j. do 4 (apply prel_same; intros ?).
  apply (prel_bind eq); [apply solver_rel|]. intros _ _ _. destruct (_ <? _); [|apply prel_ret]. apply prel_same. intros len.
  apply prel_for. intros k. apply prel_read. intros v v' H. apply prel_write. auto.
Qed.
Lemma round_rel svs dims d : prel eq (solve_round o on svs dims d) (solve_round o on svs dims d).
Proof using Rsub Rmul Rdiv. unfold solve_round. do 4 (apply prel_same; intros ?). apply block_rel. Qed.

Lemma mesh_set_rel w w' idx v v' : mrel w w' -> R v v' -> rrel mrel (mesh_set w idx v) (mesh_set w' idx v').
Proof using.
  intros [E H] Hv. unfold mesh_set. rewrite E. apply rrel_same. intros i. apply (rrel_bind (Forall2 R)); [apply vset_rel; auto|]. intros d d' Hd. split; auto.
Qed.
Lemma make_rel dims : mrel (mesh_make (o0 o) dims) (mesh_make (o0 o) dims).
Proof using R0. split; [reflexivity|]. apply repeat_rel. auto. Qed.
Lemma weights_rel order per dims f f' : mrel f f' -> rrel mrel (init_weights o nd order per dims f) (init_weights o nd order per dims f').
Proof using R0.
  intros [E H]. unfold init_weights, mesh_size. rewrite (Forall2_length H). apply for_rel; [apply make_rel|]. intros i w w' Hw.
  unfold mesh_iter_indices. rewrite E. apply rrel_same. intros idx. apply rrel_same. intros [idx' keep]. destruct keep; [|exact Hw].
  apply (rrel_bind R); [apply vget_rel; auto|]. intros v v' Hv. apply mesh_set_rel; auto.
Qed.
Lemma ctrl_rel t f f' : mrel f f' -> rrel mrel (solve_ctrl o on nd t f) (solve_ctrl o on nd t f').
Proof using R0 Rsub Rmul Rdiv.
  intros Hf. unfold solve_ctrl. apply (rrel_bind mrel); [apply weights_rel; auto|]. intros w w' [Ew Hw].
  apply (rrel_bind (fun x x' => fst x = fst x' /\ Forall2 (Forall2 R) (snd x) (snd x'))).
  - apply (run_rel eq); [apply prel_for; intros d; apply round_rel|]. constructor; [auto|]. constructor; [|constructor]. destruct (_ <? _); [apply repeat_rel; auto|]. constructor; auto.
  - intros [u m] [u' m'] [_ Hm]. cbn [snd] in *. unfold final_mesh. apply (rrel_bind (Forall2 R)); [apply vget_rel; auto|]. intros d d' Hd. apply rrel_same. intros dims. split; auto.
Qed.

(** ** Evaluation *)
Section Eval.
Variables (s : spline T) (c c' : mesh T).
Hypothesis Hc : mrel c c'.
Lemma shifted_rel it d a : shifted_index (load_ctrl s c) it d a = shifted_index (load_ctrl s c') it d a.
Proof using Hc. unfold shifted_index, mesh_dim_size. cbn [sp_ctrl load_ctrl sp_knots sp_order sp_per]. rewrite (proj1 Hc). reflexivity. Qed.
Lemma mesh_get_rel idx m m' : mrel m m' -> rrel R (mesh_get m idx) (mesh_get m' idx).
Proof using. intros [E H]. unfold mesh_get. rewrite E. apply rrel_same. intros i. apply vget_rel. auto. Qed.
Lemma foldM_ext {S I} (f f' : S -> I -> res S) l s0 : (forall s i, f s i = f' s i) -> foldM f l s0 = foldM f' l s0.
Proof using. intros H. revert s0. induction l; intros s0; cbn [foldM]; auto. rewrite H. destruct (f' s0 a); cbn; auto. Qed.
Lemma eval_rel coords : rrel R (spline_eval o (load_ctrl s c) coords) (spline_eval o (load_ctrl s c') coords).
Proof using R0 Radd Rmul Hc.
  unfold spline_eval. change (get_knot_iters o (load_ctrl s c') coords) with (get_knot_iters o (load_ctrl s c) coords). apply rrel_same. intros it.
  change (calc_base_spline_vals o (load_ctrl s c')) with (calc_base_spline_vals o (load_ctrl s c)). apply rrel_same. intros vals.
  apply for_rel; [auto|]. intros i v v' Hv. apply rrel_same. intros ind.
  change (sp_dim (load_ctrl s c')) with (sp_dim (load_ctrl s c)). unfold for_.
  rewrite (foldM_ext _ (fun (st : T * list nat) d => let '(coef, ind_arr) := st in
        a <- vget ind_arr d ;; bs <- vget vals d ;; b <- vget bs a ;; a' <- shifted_index (load_ctrl s c') it d a ;;
        ind_arr' <- vset ind_arr d a' ;; Ok (omul o coef b, ind_arr'))).
  - apply rrel_same. intros [coef idx]. apply (rrel_bind R); [apply mesh_get_rel; auto|]. intros a a' Ha. cbn. auto.
  - intros [coef ind'] d. destruct (vget ind' d); cbn [bind]; auto. rewrite shifted_rel. reflexivity.
Qed.
Lemma line_rel order kn seg so it m m' : mrel m m' -> rrel mrel (derive_line o order kn seg so m it) (derive_line o order kn seg so m' it).
Proof using Rsub Rmul Rdiv.
  intros Hm. unfold derive_line. apply foldM_rel; auto. intros k w w' Hw. apply foldM_rel; auto. intros j x x' Hx.
  assert (AT : forall n, rrel R (sk_at x it n) (sk_at x' it n)).
  { intros n. unfold sk_at, sk_deref. destruct Hx as [_ Hx]. rewrite ?(Forall2_length Hx). destruct (Z.ltb _ 0); [reflexivity|]. apply vget_rel. auto. }
  apply (rrel_bind R); [apply AT|]. intros a a' Ha. apply (rrel_bind R); [apply AT|]. intros b b' Hb. apply rrel_same. intros tr. apply rrel_same. intros tl.
  apply (rrel_bind R); [apply Rdiv; auto|]. intros v v' Hv. unfold sk_set. destruct (Z.ltb _ 0); [reflexivity|].
  destruct Hx as [Ex Hx]. apply (rrel_bind (Forall2 R)); [apply vset_rel; auto|]. intros d d' Hd. split; auto.
Qed.
Lemma deriv_rel coords : rrel R (spline_derivative_at o on (load_ctrl s c) coords) (spline_derivative_at o on (load_ctrl s c') coords).
Proof using R0 Radd Rsub Rmul Rdiv Hc.
  unfold spline_derivative_at. change (sp_order (load_ctrl s c')) with (sp_order (load_ctrl s c)). change (sp_dim (load_ctrl s c')) with (sp_dim (load_ctrl s c)).
  destruct (existsb _ _); [exact R0|].
  change (get_knot_iters o (load_ctrl s c')) with (get_knot_iters o (load_ctrl s c)). apply rrel_same. intros it.
  change (calc_base_spline_vals o (load_ctrl s c')) with (calc_base_spline_vals o (load_ctrl s c)). apply rrel_same. intros vals.
  apply (rrel_bind (fun x x' : mesh T * mesh T => fst x = fst x' /\ mrel (snd x) (snd x'))).
  - apply for_rel; [split; [reflexivity|apply make_rel]|]. intros i [lsv lcp] [lsv' lcp'] [E Hl]. cbn [fst snd] in E, Hl. subst lsv'.
    unfold for_. rewrite (foldM_ext _ (fun (st : T * list nat) d => let '(coef, ind_arr) := st in
        a <- vget (digits (sp_order (load_ctrl s c) + 1) (sp_dim (load_ctrl s c)) i) d ;; bs <- vget vals d ;; b <- vget bs a ;; a' <- shifted_index (load_ctrl s c') it d a ;;
        ind_arr' <- vset ind_arr d a' ;; Ok (omul o coef b, ind_arr'))).
    + apply rrel_same. intros [coef idx]. apply rrel_same. intros lsv2. apply (rrel_bind R); [apply mesh_get_rel; auto|]. intros a a' Ha.
      apply (rrel_bind mrel); [apply mesh_set_rel; auto|]. intros m m' Hm. cbn. auto.
    + intros [coef ind'] d. destruct (vget (digits _ _ _) d); cbn [bind]; auto. rewrite shifted_rel. reflexivity.
  - intros [lsv lcp] [lsv' lcp'] [E Hl]. cbn [fst snd] in E, Hl. subst lsv'. apply (rrel_bind mrel).
    + apply for_rel; auto. intros d m m' Hm. apply rrel_same. intros q. destruct (_ =? _); [exact Hm|].
      destruct Hm as [Em Hm]. unfold mesh_dim_size, mesh_size. rewrite Em, (Forall2_length Hm). apply rrel_same. intros n. apply rrel_same. intros h.
      apply for_rel; [split; auto|]. intros i w w' Hw. unfold mesh_begin. rewrite (proj1 Hw). apply rrel_same. intros z. change (sp_knots (load_ctrl s c')) with (sp_knots (load_ctrl s c)).
      apply rrel_same. intros kn. apply rrel_same. intros ki. apply line_rel. auto.
    + intros m m' [Em Hm]. apply for_rel; auto. intros i v v' Hv. apply rrel_same. intros a. apply (rrel_bind R); [apply vget_rel; auto|]. intros x x' Hx. cbn. auto.
Qed.
End Eval.

Lemma interp_eval_rel g c c' xs : mrel c c' -> rrel R (interp_eval o (set_ctrl g c) xs) (interp_eval o (set_ctrl g c') xs).
Proof using R0 Radd Rmul.
  intros Hc. unfold interp_eval. change (add_hints o (set_ctrl g c') xs) with (add_hints o (set_ctrl g c) xs). apply rrel_same. intros l. apply eval_rel. auto.
Qed.
Lemma interp_deriv_rel g c c' xs q : mrel c c' -> rrel R (interp_derivative o on (set_ctrl g c) xs q) (interp_derivative o on (set_ctrl g c') xs q).
Proof using R0 Radd Rsub Rmul Rdiv.
  intros Hc. unfold interp_derivative. change (hint_for o (set_ctrl g c')) with (hint_for o (set_ctrl g c)).
  change (sp_dim (if_spline (set_ctrl g c'))) with (sp_dim (if_spline (set_ctrl g c))). apply rrel_same. intros l. apply deriv_rel. auto.
Qed.
End Rel.

(** ** Doubles *)
Definition srel (n : bool) (x y : spec_float) : Prop :=
  match x, y with
  | S754_nan, S754_nan => True
  | S754_zero _, S754_zero _ => True
  | S754_infinity s, S754_infinity s' => s' = xorb n s
  | S754_finite s m e, S754_finite s' m' e' => s' = xorb n s /\ m' = m /\ e' = e
  | _, _ => False
  end.

Lemma srel_aux n prec emax s mx ex lx : srel n (binary_round_aux prec emax s mx ex lx) (binary_round_aux prec emax (xorb n s) mx ex lx).
Proof.
  unfold binary_round_aux. destruct (shr_fexp _ _ _ _ _) as [mrs e]. destruct (shr_fexp _ _ _ _ _) as [mrs' e'].
  destruct (shr_m mrs'); simpl; auto. destruct (_ <=? _)%Z; simpl; auto.
Qed.
Lemma srel_round n prec emax s mx ex : srel n (binary_round prec emax s mx ex) (binary_round prec emax (xorb n s) mx ex).
Proof. unfold binary_round. destruct (shl_align _ _ _). apply srel_aux. Qed.
Lemma srel_norm n prec emax m e s s' : srel n (binary_normalize prec emax m e s) (binary_normalize prec emax (if n then - m else m) e s').
Proof.
  destruct m; simpl.
  - destruct n; simpl; auto.
  - destruct n; apply srel_round with (s := false) (n := true) || apply srel_round with (s := false) (n := false).
  - destruct n; apply srel_round with (s := true) (n := true) || apply srel_round with (s := true) (n := false).
Qed.
Lemma cond_xorb n s m : cond_Zopp (xorb n s) m = if n then (- cond_Zopp s m)%Z else cond_Zopp s m.
Proof. destruct n, s; simpl; auto. rewrite Z.opp_involutive. auto. Qed.
Lemma srel_add n prec emax a a' b b' : srel n a a' -> srel n b b' -> srel n (SFadd prec emax a b) (SFadd prec emax a' b').
Proof.
  intros Ha Hb.
  destruct a, a'; simpl in Ha; try contradiction; destruct b, b'; simpl in Hb; try contradiction; unfold SFadd; try exact I; try (simpl; tauto).
  - destruct (Bool.eqb s s1), (Bool.eqb s0 s2); exact I.
  - subst. destruct n, s, s1; simpl; auto.
  - destruct Ha as (-> & -> & ->), Hb as (-> & -> & ->). rewrite !cond_xorb.
    set (u := Z.min e e1). 
    match goal with |- srel _ (binary_normalize _ _ ?z _ _) (binary_normalize _ _ ?z' _ _) => replace z' with (if n then - z else z)%Z end.
    + apply srel_norm.
    + destruct n; lia.
Qed.
Lemma srel_opp n a a' : srel n a a' -> srel n (SFopp a) (SFopp a').
Proof. destruct a, a'; simpl; auto; try tauto. - intros ->. destruct n, s; reflexivity. - intros (-> & -> & ->). destruct n, s; auto. Qed.
Lemma srel_sub n prec emax a a' b b' : srel n a a' -> srel n b b' -> srel n (SFsub prec emax a b) (SFsub prec emax a' b').
Proof.
  intros Ha Hb.
  destruct a, a'; simpl in Ha; try contradiction; destruct b, b'; simpl in Hb; try contradiction; unfold SFsub; try exact I; try (simpl; tauto).
  - destruct (Bool.eqb s (negb s1)), (Bool.eqb s0 (negb s2)); exact I.
  - subst. destruct n, s1; reflexivity.
  - destruct Hb as (-> & -> & ->). destruct n, s1; simpl; auto.
  - subst. destruct n, s, s1; simpl; auto.
  - subst. destruct n, s1; reflexivity.
  - destruct Ha as (-> & -> & ->), Hb as (-> & -> & ->). rewrite !cond_xorb.
    set (u := Z.min e e1). 
    match goal with |- srel _ (binary_normalize _ _ ?z _ _) (binary_normalize _ _ ?z' _ _) => replace z' with (if n then - z else z)%Z end.
    + apply srel_norm.
    + destruct n; lia.
Qed.
Lemma xorb_mid n c b : xorb c (xorb n b) = xorb n (xorb c b).
Proof. destruct n, c, b; auto. Qed.
Lemma srel_mul n prec emax c b b' : srel n b b' -> srel n (SFmul prec emax c b) (SFmul prec emax c b').
Proof.
  intros Hb. destruct b, b'; simpl in Hb; try contradiction; destruct c; unfold SFmul; try exact I; try (simpl; tauto).
  - subst. apply xorb_mid.
  - subst. apply xorb_mid.
  - destruct Hb as (-> & -> & ->). apply xorb_mid.
  - destruct Hb as (-> & -> & ->). rewrite xorb_mid. apply srel_aux.
Qed.
Lemma srel_div n prec emax c a a' : srel n a a' -> srel n (SFdiv prec emax a c) (SFdiv prec emax a' c).
Proof.
  intros Ha. destruct a, a'; simpl in Ha; try contradiction; destruct c; unfold SFdiv; try exact I; try (simpl; tauto).
  - subst. apply xorb_assoc_reverse.
  - subst. apply xorb_assoc_reverse.
  - destruct Ha as (-> & -> & ->). apply xorb_assoc_reverse.
  - destruct Ha as (-> & -> & ->). rewrite xorb_assoc_reverse. destruct (SFdiv_core_binary _ _ _ _ _ _) as [[q e'] l]. apply srel_aux.
Qed.

Definition frel (n : bool) (a b : float) : Prop := srel n (Prim2SF a) (Prim2SF b).
Lemma frel_add n a a' b b' : frel n a a' -> frel n b b' -> frel n (oadd Fops a b) (oadd Fops a' b').
Proof. intros. unfold frel. cbn [oadd Fops]. rewrite !add_spec. apply srel_add; auto. Qed.
Lemma frel_sub n a a' b b' : frel n a a' -> frel n b b' -> frel n (osub Fops a b) (osub Fops a' b').
Proof. intros. unfold frel. cbn [osub Fops]. rewrite !sub_spec. apply srel_sub; auto. Qed.
Lemma frel_mul n c b b' : frel n b b' -> frel n (omul Fops c b) (omul Fops c b').
Proof. intros. unfold frel. cbn [omul Fops]. rewrite !mul_spec. apply srel_mul; auto. Qed.
Lemma frel_div n c a a' : frel n a a' -> rrel (frel n) (odiv Fops a c) (odiv Fops a' c).
Proof. intros. unfold frel. cbn [odiv Fops same_outcome]. rewrite !div_spec. apply srel_div; auto. Qed.
Lemma frel_0 n : frel n (o0 Fops) (o0 Fops).
Proof. exact I. Qed.

Lemma SFeqb_refl a : SFeqb a a = true \/ a = S754_nan.
Proof.
  destruct a; auto; left; unfold SFeqb; simpl; try destruct s; auto; rewrite Z.compare_refl, Pos.compare_cont_refl; auto.
Qed.
Lemma Pcmp_eq a b (c : bool) : (if c then CompOpp (Pos.compare_cont Eq a b) else Pos.compare_cont Eq a b) = Eq -> a = b.
Proof. intros H. apply Pos.compare_eq. unfold Pos.compare. destruct c; auto. destruct (Pos.compare_cont Eq a b); auto; discriminate. Qed.
Lemma SFeqb_srel a b : SFeqb b a = true -> srel false a b.
Proof.
  unfold SFeqb. destruct a, b; simpl; try (destruct s); try (destruct s0); try discriminate; auto; simpl;
  destruct (Z.compare_spec e0 e); try discriminate; intros HH; repeat split; auto.
  - apply (Pcmp_eq _ _ true). destruct (CompOpp _); auto; discriminate.
  - apply (Pcmp_eq _ _ false). destruct (Pos.compare_cont _ _ _); auto; discriminate.
Qed.
Lemma srel_SFeqb a b : srel false a b -> SFeqb b a = true \/ a = S754_nan /\ b = S754_nan.
Proof.
  destruct a, b; simpl; try contradiction; auto.
  - intros ->. left. destruct s; reflexivity.
  - intros (-> & -> & ->). left. destruct (SFeqb_refl (S754_finite s m e)) as [H|H]; [destruct s; exact H|discriminate].
Qed.
Lemma srel_flip a b : srel true a b <-> srel false (SFopp a) b.
Proof. destruct a, b; simpl; try tauto. - destruct s, s0; simpl; tauto. - destruct s, s0; simpl; tauto. Qed.
Lemma is_nan_SF a : is_nan a = true <-> Prim2SF a = S754_nan.
Proof.
  unfold is_nan. rewrite eqb_spec. split; intros H.
  - destruct (SFeqb_refl (Prim2SF a)) as [E|E]; auto. rewrite E in H. discriminate.
  - rewrite H. reflexivity.
Qed.
Lemma alike_frel a b : alike a b <-> frel false a b.
Proof.
  unfold alike, frel. rewrite eqb_spec, !is_nan_SF. split.
  - intros [H|[H1 H2]]; [apply SFeqb_srel; auto|]. rewrite H1, H2. exact I.
  - apply srel_SFeqb.
Qed.
Lemma opposite_frel a b : opposite a b <-> frel true a b.
Proof.
  unfold opposite, frel. rewrite eqb_spec, opp_spec, !is_nan_SF, srel_flip. split.
  - intros [H|[H1 H2]]; [apply SFeqb_srel; auto|]. rewrite H1, H2. exact I.
  - intros H. apply srel_SFeqb in H. destruct H as [H|[H1 H2]]; auto. right. split; auto. destruct (Prim2SF a); try discriminate; auto.
Qed.

Lemma rrel_iff {A} (P Q : A -> A -> Prop) r r' : (forall a b, P a b <-> Q a b) -> rrel P r r' -> rrel Q r r'.
Proof. intros H. destruct r, r'; simpl; auto. apply H. Qed.
Lemma Forall2_iff {A} (P Q : A -> A -> Prop) l l' : (forall a b, P a b <-> Q a b) -> Forall2 P l l' -> Forall2 Q l l'.
Proof. intros H F. induction F; constructor; auto. apply H. auto. Qed.

Section Doubles.
Variables (P : float -> float -> Prop) (n : bool).
Hypothesis HP : forall a b, P a b <-> frel n a b.
Lemma set_related on g c c' : mrel (frel n) c c' -> related_functions P on (set_ctrl g c) (set_ctrl g c').
Proof using HP.
  intros Hc xs.
  assert (E : rrel P (interp_eval Fops (set_ctrl g c) xs) (interp_eval Fops (set_ctrl g c') xs)).
  { apply (rrel_iff (frel n)); [intros; symmetry; auto|]. apply (interp_eval_rel Fops (frel n) (frel_0 n) (frel_add n) (frel_mul n)). auto. }
  assert (D : forall q, rrel P (interp_derivative Fops on (set_ctrl g c) xs q) (interp_derivative Fops on (set_ctrl g c') xs q)).
  { intros q. apply (rrel_iff (frel n)); [intros; symmetry; auto|]. apply (interp_deriv_rel Fops on (frel n) (frel_0 n) (frel_add n) (frel_sub n) (frel_mul n) (frel_div n)). auto. }
  split; [exact E|]. split.
  - unfold interp_at. change (boundary_check Fops (set_ctrl g c')) with (boundary_check Fops (set_ctrl g c)). apply rrel_same. intros _. exact E.
  - intros q. split; [apply D|]. unfold interp_derivative_at. change (boundary_check Fops (set_ctrl g c')) with (boundary_check Fops (set_ctrl g c)). apply rrel_same. intros _. apply D.
Qed.
Lemma ctrl_related on nd t f f' : related_data P f f' -> rrel (mrel (frel n)) (solve_ctrl Fops on nd t f) (solve_ctrl Fops on nd t f').
Proof using HP.
  intros [E H]. apply (ctrl_rel Fops on nd (frel n) (frel_0 n) (frel_sub n) (frel_mul n) (frel_div n)). split; auto. apply (Forall2_iff P); auto.
Qed.
Lemma interpolate_related on nd t f f' : related_data P f f' ->
  rrel (related_functions P on) (interpolate Fops on nd t f) (interpolate Fops on nd t f').
Proof using HP. intros H. unfold interpolate. apply (rrel_bind (mrel (frel n))); [apply ctrl_related; auto|]. intros c c' Hc. apply set_related. auto. Qed.
Lemma make_related on nd order per ranges f f' : related_data P f f' ->
  rrel (related_functions P on) (interp_make Fops on nd order per f ranges) (interp_make Fops on nd order per f' ranges).
Proof using HP.
  intros H. unfold interp_make, interpolate_move. rewrite (proj1 H). apply rrel_same. intros t.
  pose proof (ctrl_related on nd t f f' H) as C. destruct (solve_ctrl Fops on nd t f), (solve_ctrl Fops on nd t f'); simpl in C |- *; try contradiction; auto. apply set_related. auto.
Qed.
End Doubles.

(** The exact negation of every value is the opposite data. *)
Lemma map_opp_opposite f : related_data opposite f (mkMesh (m_dims f) (map PrimFloat.opp (m_data f))).
Proof.
  split; [reflexivity|]. cbn [m_data]. induction (m_data f); cbn [map]; constructor; auto.
  apply opposite_frel. unfold frel. rewrite opp_spec. destruct (Prim2SF a); simpl; auto.
Qed.

Definition negated_interpolate := interpolate_related opposite true opposite_frel.
Definition negated_make := make_related opposite true opposite_frel.
Definition alike_interpolate := interpolate_related alike false alike_frel.
Definition alike_make := make_related alike false alike_frel.

Lemma opposite_self v : opposite v v <-> PrimFloat.eqb v zero = true \/ is_nan v = true.
Proof.
  rewrite opposite_frel, eqb_spec, is_nan_SF. unfold frel. change (Prim2SF zero) with (S754_zero false). destruct (Prim2SF v); simpl; split; auto; try tauto.
  - destruct s; discriminate.
  - intros [H|H]; [destruct s; discriminate|discriminate].
  - intros [H _]. destruct s; discriminate.
  - intros [H|H]; [destruct s; discriminate|discriminate].
Qed.
Lemma zero_data on nd t f g xs orders v :
  (forall a, In a (m_data f) -> PrimFloat.eqb a zero = true) -> interpolate Fops on nd t f = Ok g ->
  interp_eval Fops g xs = Ok v \/ interp_derivative Fops on g xs orders = Ok v ->
  PrimFloat.eqb v zero = true \/ is_nan v = true.
Proof.
  intros H E Ev. apply opposite_self. 
  assert (D : related_data opposite f f).
  { split; [reflexivity|]. induction (m_data f) as [|a l IH]; constructor; [apply opposite_self; left; apply H; left; auto|]. apply IH. intros b Hb. apply H. right. auto. }
  pose proof (negated_interpolate on nd t f f D) as N. rewrite E in N. cbn in N. destruct (N xs) as (N1 & _ & N3). destruct (N3 orders) as [N4 _].
  destruct Ev as [Ev|Ev]; rewrite Ev in *; auto.
Qed.

(** ** Data of the examples *)
(** 4 x 5 values, their opposites, and values that differ in the signs of zeros; the first dimension is
    periodic. *)
Definition se_f : mesh float := mkMesh [4; 5]%nat [1; -2; 0.125; 5; 3; 7; -0; 4; 0.375; 9; 2; 0; -8; 6; 1; 5; 5; 4; -3; 2]%float.
Definition se_f' : mesh float := mkMesh [4; 5]%nat [-1; 2; -0.125; -5; -3; -7; -0; -4; -0.375; -9; -2; -0; 8; -6; -1; -5; -5; -4; 3; -2]%float.
Definition se_f2 : mesh float := mkMesh [4; 5]%nat [1; -2; 0.125; 5; 3; 7; 0; 4; 0.375; 9; 2; -0; -8; 6; 1; 5; 5; 4; -3; 2]%float.
Definition se_inf : mesh float := mkMesh [4]%nat [1; infinity; 2; 3]%float.
Definition se_rs : list (xrange float) := [Uniform 0 4; Points [0; 1; 2.5; 3; 4]]%float.
Definition se_none : templ float := mkTempl (mkInterp (spline_empty Fops 0 []) [] []) [] [] [].
Definition se_t : templ float := match templ_make Fops true true 3 [true; false] [4; 5]%nat se_rs with Ok t => t | _ => se_none end.
Definition se_t1 : templ float := match templ_make Fops true true 2 [true] [4]%nat [Uniform 0 4]%float with Ok t => t | _ => se_none end.
Definition se_get (r : res float) : float := match r with Ok v => v | _ => zero end.
Definition se_of (f : mesh float) : interp float := match interpolate Fops true true se_t f with Ok g => g | _ => tp_base se_t end.
