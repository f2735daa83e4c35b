(** Model of the extended Kalman filter, /repo/include/smooth/feedback/ekf.hpp.

    Simplifications: scalars are an arbitrary real field [F].  The Lie group [G] with its right-plus
    and the adjoint representation [ad] are parameters (smooth library).  [diff::dr<1>] is a pair
    (value, Jacobian) supplied with the function.  Dense LDLT solve of the symmetric matrix given by
    an upper triangle is multiplication by the inverse.  The boost odeint steppers are explicit
    Runge-Kutta methods given by a tableau ([euler_tab] is the default template argument). *)
From mathcomp Require Import all_ssreflect all_algebra.
Set Implicit Arguments.
Unset Strict Implicit.
Unset Printing Implicit Defensive.
Import Order.TTheory GRing.Theory Num.Theory.
Local Open Scope ring_scope.

Section Ekf.
Variables (F : realFieldType) (d : nat) (G : Type).
Variable gplus : G -> 'cV[F]_d -> G.      (* g + a, ekf.hpp:137 *)
Variable ad : 'cV[F]_d -> 'M[F]_d.        (* ad<G>, ekf.hpp:86 *)

(** selfadjointView<Eigen::Upper> evaluated into a dense matrix, ekf.hpp:87, 130, 138. *)
Definition symU n (M : 'M[F]_n) : 'M[F]_n :=
  \matrix_(i, j) if (i <= j)%N then M i j else M j i.

(** triangularView<Eigen::Upper> assigned to a dense matrix, ekf.hpp:130. *)
Definition triuU n (M : 'M[F]_n) : 'M[F]_n :=
  \matrix_(i, j) if (i <= j)%N then M i j else 0.

(** Filter state g_hat_, P_, ekf.hpp:142-144. *)
Record ekf := Ekf { g_hat : G; cov : 'M[F]_d }.

(** reset, ekf.hpp:45-49. *)
Definition reset (g : G) (P : 'M[F]_d) : ekf := Ekf g P.

(** Explicit Runge-Kutta stepper (boost::numeric::odeint): [tab] lists for each stage the time
    fraction and the coefficients of the previous stages, [b] the final weights. *)
Definition tableau := (seq (F * seq F) * seq F)%type.
Definition euler_tab : tableau := ([:: (0, [::])], [:: 1]).
Definition lincomb (p q : nat) (cs : seq F) (ks : seq 'M[F]_(p,q)) : 'M[F]_(p,q) :=
  \sum_(k <- zip cs ks) k.1 *: k.2.
Fixpoint rk_stages (X : Type) (p q : nat) (plus : X -> 'M[F]_(p,q) -> X)
    (ode : X -> F -> 'M[F]_(p,q)) (x : X) (t h : F) (tab : seq (F * seq F)) (ks : seq 'M[F]_(p,q)) :=
  if tab is (c, a) :: tab' then
    rk_stages plus ode x t h tab' (rcons ks (ode (plus x (h *: lincomb a ks)) (t + c * h)))
  else ks.
(** do_step, ekf.hpp:94-95, 100-101. *)
Definition do_step (X : Type) (p q : nat) (tb : tableau) (plus : X -> 'M[F]_(p,q) -> X)
    (ode : X -> F -> 'M[F]_(p,q)) (x : X) (t h : F) : X :=
  plus x (h *: lincomb tb.2 (rk_stages plus ode x t h tb.1 [::])).

(** cov_ode, ekf.hpp:83-88; [f t g] is the pair (value, right Jacobian) computed by diff::dr. *)
Definition cov_ode (f : F -> G -> 'cV[F]_d * 'M[F]_d) (Q : 'M[F]_d) (g : G) (P : 'M[F]_d) (t : F)
    : 'M[F]_d :=
  let A := - ad (f t g).1 + (f t g).2 in
  symU (A *m P + P *m A^T + Q).

(** Covariance step, then state step, ekf.hpp:94-95 and 100-101; the covariance step uses the
    current g_hat_ in all stages. *)
Definition pred_step (tb : tableau) (f : F -> G -> 'cV[F]_d * 'M[F]_d) (Q : 'M[F]_d)
    (s : ekf) (t h : F) : ekf :=
  Ekf (do_step tb gplus (fun g t' => (f t' g).1) (g_hat s) t h)
      (do_step tb +%R (cov_ode f Q (g_hat s)) (cov s) t h).

(** The loop of predict, ekf.hpp:92-101; [None] if the loop is still running after [fuel] tests. *)
Fixpoint pred_loop (tb : tableau) f Q (tau dtv : F) (fuel : nat) (t : F) (s : ekf) : option ekf :=
  if fuel is fuel'.+1 then
    if t + dtv < tau then pred_loop tb f Q tau dtv fuel' (t + dtv) (pred_step tb f Q s t dtv)
    else Some (pred_step tb f Q s t (tau - t))
  else None.

(** predict, ekf.hpp:79-103. *)
Definition predict (tb : tableau) f Q (tau : F) (dt : option F) (fuel : nat) (s : ekf) : option ekf :=
  pred_loop tb f Q tau (odflt (2%:R * tau) dt) fuel 0 s.

(** update, ekf.hpp:116-139; [innov] is y - hval (tangent of the measurement manifold), [H] the
    Jacobian of the measurement function at the estimate. *)
Definition innov_cov ny (H : 'M[F]_(ny,d)) (R : 'M[F]_ny) (P : 'M[F]_d) : 'M[F]_ny :=
  triuU (H *m symU P *m H^T + R).
Definition gain ny (H : 'M[F]_(ny,d)) (R : 'M[F]_ny) (P : 'M[F]_d) : 'M[F]_(d,ny) :=
  (invmx (symU (innov_cov H R P)) *m (H *m P))^T.
Definition update ny (innov : G -> 'cV[F]_ny) (Hf : G -> 'M[F]_(ny,d)) (R : 'M[F]_ny) (s : ekf) : ekf :=
  let H := Hf (g_hat s) in
  let K := gain H R (cov s) in
  Ekf (gplus (g_hat s) (K *m innov (g_hat s)))
      (symU ((1%:M - K *m H) *m cov s)).

(** Public operations; [OUpdate ny innov Hf R] is a measurement of dimension ny. *)
Inductive eop :=
| OReset of G & 'M[F]_d
| OPredict of (F -> G -> 'cV[F]_d * 'M[F]_d) & 'M[F]_d & F & option F
| OUpdate (ny : nat) of (G -> 'cV[F]_ny) & (G -> 'M[F]_(ny,d)) & 'M[F]_ny.

(** Execution of one operation; [None] when predict does not terminate within [fuel]. *)
Definition ekf_step tb (fuel : nat) (s : ekf) (o : eop) : option ekf :=
  match o with
  | OReset g P => Some (reset g P)
  | OPredict f Q tau dt => predict tb f Q tau dt fuel s
  | @OUpdate ny innov Hf R => Some (update innov Hf R s)
  end.

(** Default-constructed filter, ekf.hpp:143-144 ([g0] is Default<G>()). *)
Definition ekf_new (g0 : G) : ekf := Ekf g0 1%:M.
Definition ekf_run tb fuel (g0 : G) (os : seq eop) : option ekf :=
  foldl (fun s o => if s is Some s' then ekf_step tb fuel s' o else None) (Some (ekf_new g0)) os.
End Ekf.
