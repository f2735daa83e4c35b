(** Property C91: the point at which IPOPT starts (ipopt.hpp:95-113, 314-333). *)
From mathcomp Require Import all_ssreflect all_algebra zify.
From Verif Require Import Calc QpModel QpSpec MeshModel MeshSpec MeshFacts MeshQuad MeshEval MeshProps.
From Verif Require Import SparseModel MeshFunModel NlpModel NlpFacts NlpProps NlpSol IpoptModel.
Set Implicit Arguments.
Unset Strict Implicit.
Unset Printing Implicit Defensive.
Import Order.TTheory GRing.Theory Num.Theory.
Local Open Scope ring_scope.

Section Start.
Variable F : realFieldType.
Variables (T V : eqType).

(** Eigen::Map<VectorXd>(p, k) = v, ipopt.hpp:106-112: the map cannot be resized.  [None] is the failed assertion for another
    length; if assertions are switched off, the copy reads outside of v or leaves values out. *)
Definition to_map (k : nat) (v : seq F) : option (seq F) := if size v == k then Some v else None.
(** What get_starting_point writes: x, the multipliers of the bounds, the multipliers of the constraints. *)
Record start_pt := StartPt { st_x : option (seq F); st_z : option (seq F * seq F); st_lam : option (seq F) }.
(** get_starting_point, ipopt.hpp:95-116, with the member sol_. *)
Definition get_starting_point (n m : nat) (sol : nsol F) (init_x init_z init_lambda : bool) : option start_pt :=
  obind (fun x => obind (fun z => omap (fun l => StartPt x z l)
      (if init_lambda then omap Some (to_map m (n_lam sol)) else Some None))
      (if init_z then obind (fun zl => omap (fun zu => Some (zl, zu)) (to_map n (n_zu sol))) (to_map n (n_zl sol)) else Some None))
      (if init_x then omap Some (to_map n (n_x sol)) else Some None).

(** SetStringValue in IPOPT: sets the value unless it is invalid for this option. *)
Definition set_string (valid : V -> bool) (key : T) (cur : V) (o : T * V) : V := if (o.1 == key) && valid o.2 then o.2 else cur.
(** The value of warm_start_init_point after ipopt.hpp:318-333. *)
Definition warm_option (valid : V -> bool) (key : T) (yes no : V) (warm : bool) (opts : seq (T * V)) : V :=
  foldl (set_string valid key) (if warm then yes else no) opts.
(** The member sol_ before OptimizeTNLP, ipopt.hpp:316-325; [junk] is the uninitialised status. *)
Definition start_sol (n : nat) (junk : nstatus) (warm : option (nsol F)) : nsol F :=
  if warm is Some w then w else NSol junk 0 (nseq n 0) [::] [::] [::] 0.
(** The starting point that IPOPT gets.  IPOPT asks for x, and for the multipliers iff warm_start_init_point is "yes". *)
Definition ipopt_start (n m : nat) (junk : nstatus) (valid : V -> bool) (key : T) (yes no : V) (warm : option (nsol F))
    (opts : seq (T * V)) : option start_pt :=
  let w := warm_option valid key yes no (isSome warm) opts == yes in
  get_starting_point n m (start_sol n junk warm) true w w.

Variables (n m : nat) (junk : nstatus) (valid : V -> bool) (key : T) (yes no : V).
Hypothesis yn : yes != no.
(** The vectors of a solution have the sizes of the problem. *)
Definition fits (w : nsol F) : Prop := [/\ size (n_x w) = n, size (n_zl w) = n, size (n_zu w) = n & size (n_lam w) = m].
(** The user sets the option warm_start_init_point (to a valid value). *)
Definition sets (opts : seq (T * V)) : bool := has (fun o => (o.1 == key) && valid o.2) opts.
Local Notation start := (ipopt_start n m junk valid key yes no).

Lemma opt_unset w opts : ~~ sets opts -> warm_option valid key yes no w opts = if w then yes else no.
Proof.
rewrite /warm_option; move: (if w then yes else no) => v; elim: opts v => //= o os IH v.
by rewrite negb_or => /andP[h1 h2]; rewrite /set_string (negbTE h1) IH.
Qed.
Lemma opt_set w opts : sets opts -> warm_option valid key yes no w opts = warm_option valid key yes no (~~ w) opts.
Proof.
rewrite /warm_option; move: (if w then yes else no) (if ~~ w then yes else no) => v v'; elim: opts v v' => //= o os IH v v'.
rewrite -/(sets os); case: (boolP (sets os)) => [hs _|hn]; first by rewrite (IH _ (set_string valid key v' o)).
by rewrite orbF /set_string => ->.
Qed.
(** A complete warm start is handed to IPOPT as it is. *)
Theorem C91_warm w opts : fits w -> ~~ sets opts ->
  start (Some w) opts = Some (StartPt (Some (n_x w)) (Some (n_zl w, n_zu w)) (Some (n_lam w))).
Proof.
move=> [h1 h2 h3 h4] hs; rewrite /ipopt_start /= opt_unset //= eqxx /get_starting_point /to_map.
by rewrite h1 h2 h3 h4 !eqxx.
Qed.
(** Without warm start IPOPT starts at zero, and no multipliers are given. *)
Theorem C91_cold opts : ~~ sets opts -> start None opts = Some (StartPt (Some (nseq n 0)) None None).
Proof.
move=> hs; rewrite /ipopt_start /= opt_unset //= eq_sym (negbTE yn) /get_starting_point /to_map /=.
by rewrite size_nseq eqxx.
Qed.
(** In general the starting point is defined iff the vectors that IPOPT asks for have the right sizes. *)
Theorem C91_defined w opts : let v := warm_option valid key yes no (isSome w) opts in
  isSome (start w opts) <->
  (if w is Some w0 then size (n_x w0) = n /\ (v = yes -> fits w0) else v = yes -> n = 0%N /\ m = 0%N).
Proof.
move=> v; rewrite /ipopt_start -/v /get_starting_point /to_map; case: w @v => [w|] v /=; last first.
  rewrite size_nseq eqxx /=; case: (v =P yes) => [e|e]; last by split=> // _ /e.
  move: (n) (m) => [|a] [|b]; split=> //; by move/(_ e) => -[].
case: (size (n_x w) =P n) => [hx|hx]; last by split=> // -[/hx].
case: (v =P yes) => [e|e] /=; last by split=> // _; split=> // /e.
split=> [h|[_ /(_ e)[_ -> -> ->]]]; last by rewrite !eqxx.
split=> // _; move: h; case: eqP => //= h1; case: eqP => //= h2; case: eqP => //= h3 _; by split.
Qed.

(** The solution of one call, used as warm start of the next call of the same problem, is the starting point there.  IPOPT
    passes vectors of the sizes of the problem to finalize_solution. *)
Theorem C91_resume warm0 (ipopt : bool -> nsol F -> option (fin F)) a opts :
  ipopt (isSome warm0) (start_sol n junk warm0) = Some a ->
  [/\ size (f_x a) = n, size (f_zl a) = n, size (f_zu a) = n & size (f_lam a) = m] -> ~~ sets opts ->
  start (Some (solve_nlp_ipopt n junk warm0 ipopt)) opts = Some (StartPt (Some (f_x a)) (Some (f_zl a, f_zu a)) (Some (f_lam a))).
Proof.
move=> E h hs; rewrite /solve_nlp_ipopt -/(start_sol n junk warm0) E.
exact: (C91_warm (w := finalize_solution a) h hs).
Qed.
(** If IPOPT stops before finalize_solution, the returned value cannot be used as warm start unless the problem is empty. *)
Theorem C91_resume_failed (ipopt : bool -> nsol F -> option (fin F)) opts : ipopt false (start_sol n junk None) = None ->
  (0 < n)%N -> ~~ sets opts -> start (Some (solve_nlp_ipopt n junk None ipopt)) opts = None.
Proof.
move=> E n0 hs; rewrite /solve_nlp_ipopt -/(start_sol n junk None) E.
rewrite /ipopt_start /= opt_unset //= eqxx /get_starting_point /to_map /= size_nseq eqxx /=.
by move: n0; case: (n).
Qed.
End Start.

Section Moved.
Variable F : realFieldType.
Variables Nx Nu Nq Ncr Nce : nat.
Variables (Kmin Kmax : nat) (lgr : nat -> seq F * seq F) (kinc : nat -> F -> F -> nat) (m : mesh F).
Hypotheses (k0 : (0 < Kmin)%N) (km : (Kmin <= Kmax)%N).
Hypothesis Hl : forall K, (Kmin <= K <= Kmax.+1)%N -> lgr_contract K (lgr K).
Hypotheses (rm : reachable Kmin Kmax kinc m) (hN : (\sum_(i < size m) N_colloc_ival m i < uint_mod)%N).
Local Notation n := (nlp_n Nx Nu Nq m).
Local Notation mm := (nlp_m Nx Nq Ncr Nce m).
(** The object returned by ocpsol_to_nlpsol, ocp_to_nlp.hpp:525, 547-553: x(n), lambda(m), zl and zu zero. *)
Definition to_nsol (s : nlpsol F) : nsol F := NSol NUnknown 0 (mkseq (s_x s) n) (mkseq (s_zl s) n) (mkseq (s_zu s) n) (mkseq (s_lam s) mm) 0.
(** A solution of the optimal control problem, moved to the mesh of the program and passed as warm start: IPOPT starts at its
    states, inputs, end time, integrals and multipliers; the multipliers of the bounds are zero. *)
Theorem C91_moved (T V : eqType) junk (valid : V -> bool) (key : T) (yes no : V) opts (c : ocpsol F Nx Nu Nq Ncr Nce) jx jl :
  ~~ sets valid key opts ->
  exists x lam, [/\ ipopt_start n mm junk valid key yes no (Some (to_nsol (ocpsol_to_nlpsol Kmin Kmax lgr m jx jl c))) opts =
      Some (StartPt (Some x) (Some (nseq n 0, nseq n 0)) (Some lam)),
    forall q, is_quantity Nx Nu Nq (N_colloc m) q -> nth 0 x (var_pos Nx Nu Nq m q) = ocp_var Kmin Kmax lgr m c q &
    forall q, is_condition Nx Nq Ncr Nce (N_colloc m) q -> nth 0 lam (con_pos Nx Nq Ncr Nce m q) = ocp_mult Kmin Kmax lgr m c q].
Proof.
have [hv hm] := C39_to_nlp k0 km Hl rm hN c jx jl.
move=> hs; set s := ocpsol_to_nlpsol _ _ _ _ _ _ _ in hv hm *.
have z0 : mkseq (fun=> 0 : F) n = nseq n 0 by rewrite /mkseq; elim: n 0%N => //= k IH b; congr cons.
exists (mkseq (s_x s) n), (mkseq (s_lam s) mm); split.
- rewrite (C91_warm (n := n) (m := mm)) //=; last by split; rewrite size_mkseq.
  by rewrite /= z0.
- move=> q hq; rewrite nth_mkseq; first exact: hv.
  by have [_ h _ _] := C35_variables Nx Nu Nq m; exact: h.
move=> q hq; rewrite nth_mkseq; first exact: hm.
by have [_ h _ _] := C35_constraints Nx Nq Ncr Nce m; exact: h.
Qed.
End Moved.

Section Refuted.
Variable F : realFieldType.
(** The full statement (every warm start gives a starting point that agrees with it in the parts that are given) is false: with
    a guess of the variables only, which the interface allows, get_starting_point copies from empty vectors.  Keys and values of
    options are booleans here: key true = warm_start_init_point, value true = "yes". *)
Theorem C91_x_only_refuted : exists w : nsol F, size (n_x w) = 1%N /\
  ipopt_start 1 1 NUnknown predT true true false (Some w) [::] = None.
Proof. by exists (NSol NUnknown 0 [:: 1] [::] [::] [::] 0). Qed.
(** Nor does a solve without warm start always start at zero: the user option warm_start_init_point = yes without guess. *)
Theorem C91_cold_refuted : exists opts : seq (bool * bool), ipopt_start 1 1 NUnknown predT true true false (None : option (nsol F)) opts = None.
Proof. by exists [:: (true, true)]. Qed.
(** Cases of C91_warm, C91_cold and C91_resume. *)
Example C91_case : let w := NSol NOptimal 3 [:: 1; 2%:R] [:: 0; 1] [:: 0; 0] [:: 5%:R] (1 : F) in
  [/\ fits 2 1 w, ~~ sets predT true [:: (false, true)],
      ipopt_start 2 1 NUnknown predT true true false (Some w) [:: (false, true)] =
        Some (StartPt (Some [:: 1; 2%:R]) (Some ([:: 0; 1], [:: 0; 0])) (Some [:: 5%:R])) &
      ipopt_start 2 1 NUnknown predT true true false (None : option (nsol F)) [::] = Some (StartPt (Some [:: 0; 0]) None None)].
Proof. by []. Qed.
Example C91_resume_case : exists (ipopt : bool -> nsol F -> option (fin F)) a,
  ipopt false (start_sol 1 NUnknown None) = Some a /\ size (f_lam a) = 1%N /\
  ipopt_start 1 1 NUnknown predT true true false (Some (solve_nlp_ipopt 1 NUnknown None ipopt)) [::] =
  Some (StartPt (Some [:: 3%:R]) (Some ([:: 0], [:: 0])) (Some [:: 1])).
Proof. by exists (fun _ _ => Some (FinCall SUCCESS 4 [:: 3%:R] [:: 0] [:: 0] [:: 1] 0)), (FinCall SUCCESS 4 [:: 3%:R] [:: 0] [:: 0] [:: 1] 0). Qed.
End Refuted.
(** A case of C91_moved. *)
Definition mv_m : mesh [realFieldType of rat] := [:: (1%N, 0)].
Example C91_moved_case (c : ocpsol [realFieldType of rat] 1 1 1 1 1) : exists x lam,
  [/\ ipopt_start (nlp_n 1 1 1 mv_m) (nlp_m 1 1 1 1 mv_m) NUnknown predT true true false
        (Some (to_nsol 1 1 1 1 1 mv_m (ocpsol_to_nlpsol 1 1 ex_lgr mv_m (fun=> 0) (fun=> 0) c))) [::] =
      Some (StartPt (Some x) (Some (nseq (nlp_n 1 1 1 mv_m) 0, nseq (nlp_n 1 1 1 mv_m) 0)) (Some lam)) &
      nth 0 x 0 = c_tf c].
Proof.
have rm : reachable (F := [realFieldType of rat]) 1 1 ex_kinc mv_m.
  by exists (mesh_new [realFieldType of rat] 1 1 1 1), [::]; split=> //; right; exists 1%N, 1%N.
have hN : (\sum_(i < size mv_m) N_colloc_ival mv_m i < uint_mod)%N.
  by rewrite big_ord1; apply: (@leq_trans (2 ^ 1)) => //; rewrite leq_exp2l.
have [x [lam [h1 h2 h3]]] := C91_moved (isT : (0 < 1)%N) (leqnn 1) ex_lgr_contract rm hN NUnknown true false c (fun=> 0) (fun=> 0)
  (isT : ~~ sets predT true [::]).
by exists x, lam; split=> //; exact: (h2 QTf).
Qed.
Print Assumptions C91_warm.
Print Assumptions C91_cold.
Print Assumptions C91_defined.
Print Assumptions C91_resume.
Print Assumptions C91_moved.
