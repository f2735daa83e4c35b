(** Properties C45, C49, C50 and C51: histories of MPC objects. *)
From mathcomp Require Import all_ssreflect all_algebra zify.
From mathcomp.algebra_tactics Require Import ring.
From Verif Require Import QpModel QpSpec MeshModel MeshSpec PolyFacts MeshFacts MeshQuad MeshEval MeshProps.
From Verif Require Import SparseModel MeshFunModel NlpModel OqpModel MpcModel.
Set Implicit Arguments.
Unset Strict Implicit.
Unset Printing Implicit Defensive.
Import Order.TTheory GRing.Theory Num.Theory.
Local Open Scope ring_scope.
Local Arguments muln : simpl never.

Section Hist.
Variable F : realFieldType.
Variables Nx Nu Ncr : nat.
Local Notation X := 'cV[F]_Nx.
Local Notation U := 'cV[F]_Nu.
Variables (Tm : Type) (tplus : Tm -> F -> Tm) (tminus : Tm -> Tm -> F) (tzero : Tm).
Variables (Kmesh : nat) (lgr : nat -> seq F * seq F).
Variables (f : Tm -> X -> U -> nat -> F) (df : Tm -> X -> U -> nat -> nat -> F).
Variables (cr_time : bool) (cr : Tm -> X -> U -> nat -> F) (dcr : Tm -> X -> U -> nat -> nat -> F).
Variables (crl cru : nat -> F).
Variables (S : Type) (analyze : qpst F -> S) (solve : S -> qpst F -> option (msol F) -> S * msol F).
Local Notation mobj := (mobj F Nx Nu Tm S).
Local Notation cell := (cell F Nx Nu Tm).
Local Notation mout := (mout F Nx Nu).
Local Notation mop := (mop F Nx Nu Tm).
Local Notation new := (mpc_new Ncr tplus tzero Kmesh lgr f df cr_time cr dcr crl cru analyze).
Local Notation call := (mpc_call Ncr tplus tzero Kmesh lgr f df cr_time cr dcr crl cru solve).
Local Notation step := (mpc_step Ncr tplus tminus tzero Kmesh lgr f df cr_time cr dcr crl cru solve).
Local Notation run := (mpc_run Ncr tplus tminus tzero Kmesh lgr f df cr_time cr dcr crl cru solve).
Implicit Types (co : cell * mobj) (ops : seq mop).

Lemma run_cons op ops co : run (op :: ops) co =
  ((run ops (step op co).1).1, if (step op co).2 is Some out then out :: (run ops (step op co).1).2 else (run ops (step op co).1).2).
Proof. by []. Qed.
Lemma run_cat a b co : run (a ++ b) co = ((run b (run a co).1).1, (run a co).2 ++ (run b (run a co).1).2).
Proof.
elim: a co => [|op a IH] co; first by case: run.
by rewrite cat_cons !run_cons IH /=; case: (step op co).2.
Qed.

(** * C45: the weights have no influence *)
Definition is_weights (op : mop) : bool := if op is SetWeights _ then true else false.
Definition with_w (w : weights F Nx Nu) (o : mobj) : mobj :=
  Mobj (msh o) w (xf_des o) (ft0 o) (crt0 o) (x0_fix o) (prm o) (mqp o) (slv o) (warm o).
Definition same_but_w co co' : Prop := co'.1 = co.1 /\ exists w, co'.2 = with_w w co.2.
Lemma call_w t x w c o : call t x (c, with_w w o) = ((call t x (c, o)).1.1, with_w w (call t x (c, o)).1.2, (call t x (c, o)).2).
Proof. by []. Qed.
Lemma step_w op co co' : same_but_w co co' -> ~~ is_weights op ->
  same_but_w (step op co).1 (step op co').1 /\ (step op co').2 = (step op co).2.
Proof.
case: co co' => [c o] [c' o'] [/= -> [w ->]] h; case: op h => //=; try (by move=> *; split=> //; split=> //; exists w).
Qed.
Lemma run_w ops co co' : same_but_w co co' -> (run ops co').2 = (run [seq op <- ops | ~~ is_weights op] co).2.
Proof.
elim: ops co co' => [//|op ops IH] co co' h; rewrite [filter _ _]/=; case: ifPn => hw.
  have [h1 h2] := step_w h hw; rewrite !run_cons /= h2 (IH _ _ h1); by case: (step op co).2.
case: op hw => // w _; rewrite run_cons /=; case: co co' h => [c o] [c' o'] [/= -> [w' ->]].
by apply: IH; split=> //; exists w.
Qed.
(** Whatever weights are set and when: every output of every control call, and every QP that is solved, is the same as
    if set_weights had never been called. *)
Theorem C45_ignored ops co : (run ops co).2 = (run [seq op <- ops | ~~ is_weights op] co).2.
Proof. by apply: run_w; split=> //; exists (wts co.2); case: co.2. Qed.

(** * C51: warm starts *)
Inductive event := EReset | ECall of mout.
Definition event_of (op : mop) (out : option mout) : seq event :=
  match op, out with ResetWarm, _ => [:: EReset] | _, Some o => [:: ECall o] | _, _ => [::] end.
Fixpoint trace ops co : seq event :=
  if ops is op :: ops' then event_of op (step op co).2 ++ trace ops' (step op co).1 else [::].
Definition good (e : event) : Prop := if e is ECall o then [\/ o_code o = Optimal, o_code o = MaxTime | o_code o = MaxIterations] else False.
Definition is_reset (e : event) : Prop := if e is EReset then True else False.
(** g is the most recent usable solution since the last reset. *)
Definition most_recent (tr : seq event) (g : option (msol F)) : Prop :=
  match g with
  | Some s => exists a o b, [/\ tr = a ++ ECall o :: b, good (ECall o), o_sol o = s &
                forall b1 e b2, b = b1 ++ e :: b2 -> ~ good e /\ ~ is_reset e]
  | None => forall a o b, tr = a ++ ECall o :: b -> good (ECall o) -> exists b1 b2, b = b1 ++ EReset :: b2
  end.
Lemma run_prm ops co : prm (run ops co).1.2 = prm co.2.
Proof. by elim: ops co => [//|op ops IH] [c o]; rewrite run_cons /= IH; case: op => //. Qed.
Lemma goodE (o : mout) : good (ECall o) <-> usable (o_code o).
Proof. by rewrite /good; case: (o_code o); split=> // h; first [by case: h|by apply: Or31|by apply: Or32|by apply: Or33]. Qed.
Lemma call_code t x co : o_code (call t x co).2 = mcode (o_sol (call t x co).2). Proof. by []. Qed.
Lemma call_warm t x co : warm (call t x co).1.2 =
  if pwarm (prm co.2) && usable (o_code (call t x co).2) then Some (o_sol (call t x co).2) else warm co.2.
Proof. by []. Qed.
Lemma trace_cat a b co : trace (a ++ b) co = trace a co ++ trace b (run a co).1.
Proof. by elim: a co => [//|op a IH] co /=; rewrite IH catA; case: (run a _). Qed.
Lemma split_rcons (A : Type) (t a b : seq A) x y : rcons t x = a ++ y :: b ->
  (a = t /\ b = [::] /\ y = x) \/ exists2 b', b = rcons b' x & t = a ++ y :: b'.
Proof.
case: (lastP b) => [|b' z]; first by rewrite cats1 => /rcons_inj[-> ->]; left.
by rewrite -rcons_cons -rcons_cat => /rcons_inj[-> ->]; right; exists b'.
Qed.
Lemma mr_none tr e g : ~ good e -> ~ is_reset e -> most_recent tr g -> most_recent (rcons tr e) g.
Proof.
move=> ng nr; case: g => [s|].
  move=> [a [o [b [-> go os hb]]]]; exists a, o, (rcons b e); split=> //; first by rewrite rcons_cat.
  by move=> b1 e' b2 eq; case: (split_rcons eq) => [[_ [_ ->]]|[b2' _ e2]] //; exact: (hb _ _ _ e2).
move=> h a o b eq0; case: (split_rcons eq0) => [[_ [_ ->]]|[b' -> eq] go] //.
have [b1 [b2 ->]] := h _ _ _ eq go; exists b1, (rcons b2 e).
by rewrite rcons_cat.
Qed.
Lemma mr_good tr o : good (ECall o) -> most_recent (rcons tr (ECall o)) (Some (o_sol o)).
Proof. by move=> g; exists tr, o, [::]; split=> //; [rewrite cats1|case]. Qed.
Lemma mr_reset tr : most_recent (rcons tr EReset) None.
Proof.
move=> a o b eq0; case: (split_rcons eq0) => [[_ [_ //]]|[b' -> _] _]; exists b', [::]; by rewrite cats1.
Qed.
Lemma mr_nil : most_recent [::] None.
Proof. by case. Qed.
Lemma warm_run ops co : warm co.2 = None -> pwarm (prm co.2) -> most_recent (trace ops co) (warm (run ops co).1.2).
Proof.
move=> w0 pw; elim/last_ind: ops => [|ops op IH]; first by rewrite /= w0; exact: mr_nil.
rewrite -cats1 trace_cat run_cat; have hp := run_prm ops co.
move: IH hp; move: (run ops co).1 (trace ops co) => [c o] tr IH hp.
change (most_recent (tr ++ event_of op (step op (c, o)).2 ++ [::]) (warm (step op (c, o)).1.2)); rewrite cats0.
case: op => [u|g t0|xd dxd|g d t0|w| |t x]; try by rewrite cats0.
  by rewrite cats1; exact: mr_reset.
change (most_recent (tr ++ [:: ECall (call t x (c, o)).2]) (warm (call t x (c, o)).1.2)).
rewrite cats1 call_warm hp pw /=.
case h : (usable _); first by apply: mr_good; apply/goodE.
by apply: mr_none => //; rewrite goodE h.
Qed.
Lemma warm_off ops co : warm co.2 = None -> ~~ pwarm (prm co.2) -> warm (run ops co).1.2 = None.
Proof.
move=> w0 pw; elim/last_ind: ops => [//|ops op IH]; rewrite -cats1 run_cat.
have hp := run_prm ops co; move: IH hp; move: (run ops co).1 => [c o] /= IH hp.
by case: op => //= t x; rewrite hp (negbTE pw).
Qed.
Lemma new_prm q co : new q = Some co -> prm co.2 = q /\ warm co.2 = None.
Proof. by rewrite /mpc_new; case: mesh_new => // m; case: int_hess => // gh [<-]. Qed.
(** The initial guess of every call, after every history of a constructed object. *)
Theorem C51_guess q co ops t x : new q = Some co ->
  (pwarm q -> most_recent (trace ops co) (o_guess (call t x (run ops co).1).2)) /\
  (~~ pwarm q -> o_guess (call t x (run ops co).1).2 = None).
Proof. by move=> /new_prm[<- w0]; split=> pw; [apply: warm_run|apply: warm_off]. Qed.

(** * C50: the mesh and the trajectories *)
Definition cur_udes ops : Tm -> U :=
  foldl (fun u op => match op with SetUdes u' => u' | SetUdesRel g t0 => fun t => g (tminus t t0) | _ => u end) (fun=> 0) ops.
Definition cur_xdes ops : Tm -> X :=
  foldl (fun u op => match op with SetXdes u' _ => u' | SetXdesRel g _ t0 => fun t => g (tminus t t0) | _ => u end) (fun=> 0) ops.
Definition cur_dxdes ops : Tm -> X :=
  foldl (fun u op => match op with SetXdes _ d => d | SetXdesRel _ d t0 => fun t => d (tminus t t0) | _ => u end) (fun=> 0) ops.
Lemma new_cell q co : new q = Some co -> [/\ udes co.1 = (fun=> 0), xdes co.1 = (fun=> 0) & dxdes co.1 = (fun=> 0)].
Proof. by rewrite /mpc_new; case: mesh_new => // m; case: int_hess => // gh [<-]. Qed.
Lemma run_cell q co ops : new q = Some co -> [/\ udes (run ops co).1.1 = cur_udes ops, xdes (run ops co).1.1 = cur_xdes ops &
  dxdes (run ops co).1.1 = cur_dxdes ops].
Proof.
move=> /new_cell[h1 h2 h3]; elim/last_ind: ops => [//|ops op [e1 e2 e3]].
rewrite /cur_udes /cur_xdes /cur_dxdes !foldl_rcons -/(cur_udes ops) -/(cur_xdes ops) -/(cur_dxdes ops) -e1 -e2 -e3 -cats1 run_cat /=.
by case: (run ops co).1 => c o; case: op.
Qed.
Lemma run_msh ops co : msh (run ops co).1.2 = msh co.2.
Proof. by elim: ops co => [//|op ops IH] [c o]; rewrite run_cons /= IH; case: op => //. Qed.
Definition ceil_div (a b : nat) : nat := (a + b - 1) %/ b.
Section Mesh.
Hypothesis k0 : (0 < Kmesh)%N.
Lemma new_mesh q co : new q = Some co -> mesh_new F Kmesh Kmesh ((pK q + Kmesh - 1) %/ Kmesh) Kmesh = Some (msh co.2).
Proof. by rewrite /mpc_new; case: mesh_new => // m; case: int_hess => // gh [<-]. Qed.
Lemma mesh_newE n m : mesh_new F Kmesh Kmesh n Kmesh = Some m ->
  size m = maxn 1 n /\ forall i, (i < maxn 1 n)%N -> N_colloc_ival m i = Kmesh.
Proof.
rewrite /mesh_new leqnn leqnSn => -[<-]; case: ltnP => h.
  by split=> [/=|i]; [case: n h => [|[]]|case: n h => [|[|n]] //; case: i].
rewrite size_map size_iota; split=> [|i hi]; first lia.
have hi' : (i < n)%N by clear -h hi; lia.
by rewrite /N_colloc_ival (nth_map 0%N) ?size_iota.
Qed.
Lemma new_reach kinc q co : new q = Some co -> reachable Kmesh Kmesh kinc (msh co.2).
Proof. by move=> /new_mesh e; exists (Some (msh co.2)), [::]; split=> //; right; exists ((pK q + Kmesh - 1) %/ Kmesh)%N, Kmesh. Qed.
Lemma divc K : let n := maxn 1 (ceil_div K Kmesh) in (maxn 1 K <= n * Kmesh)%N /\ ((0 < K)%N -> (n * Kmesh < K + Kmesh)%N).
Proof.
rewrite /ceil_div /=; case: K => [|K]; first by rewrite add0n divn_small ?maxn0 ?mul1n; [split|clear -k0; lia].
rewrite addSn subn1 /=; have := leq_trunc_div (K + Kmesh) Kmesh; have := ltn_ceil (K + Kmesh) k0.
have h : (0 < (K + Kmesh) %/ Kmesh)%N by rewrite divn_gt0 // leq_addl.
move: ((K + Kmesh) %/ Kmesh)%N h => n h; rewrite (maxn_idPr h) (maxn_idPr (ltn0Sn K)) mulSn => h1 h2; split=> [|_].
  by clear -h1; lia.
by clear -h2; lia.
Qed.
Lemma sum_const (m : mesh F) n : size m = n -> (forall i, (i < n)%N -> N_colloc_ival m i = Kmesh) ->
  (\sum_(i < size m) N_colloc_ival m i = n * Kmesh)%N.
Proof using Type. by move=> -> h; rewrite (eq_bigr (fun=> Kmesh)) => [|i _]; [rewrite sum_nat_const card_ord|rewrite h]. Qed.
(** The mesh, which no call changes: n intervals of Kmesh points, N = n Kmesh points where N is the smallest multiple of
    Kmesh that is at least K and positive. *)
Theorem C50_mesh q co ops : new q = Some co ->
  let m := msh (run ops co).1.2 in
  exists n, let N := (\sum_(i < size m) N_colloc_ival m i)%N in
  [/\ size m = n, forall i, (i < n)%N -> N_colloc_ival m i = Kmesh /\ tau0 m i = i%:R / n%:R, N = (n * Kmesh)%N,
      (maxn 1 (pK q) <= N)%N & ((0 < pK q)%N -> (N < pK q + Kmesh)%N)].
Proof.
move=> e; rewrite run_msh /=; have e1 := new_mesh e; have [h1 h2] := mesh_newE e1.
exists (maxn 1 ((pK q + Kmesh - 1) %/ Kmesh)).
have -> := sum_const h1 h2; have [h3 h4] := divc (pK q).
split=> // i hi; split; first exact: h2.
move: e1 hi; rewrite /mesh_new leqnn leqnSn => -[<-]; move: (_ %/ _)%N => n hi; case: (ltnP n 2) => hn.
  have -> : i = 0%N by clear -hn hi; lia.
  by rewrite mul0r.
have hi' : (i < n)%N by clear -hn hi; lia.
by rewrite /tau0 (nth_map 0%N) ?size_iota // nth_iota //= add0n mul1r (_ : maxn 1 n = n) //; clear -hn; lia.
Qed.
Lemma seg_col n (v : nat -> F) b (k : 'I_n) : (\col_(k < n) v (b + k)%N) k 0 = v (b + k)%N. Proof using Type. by rewrite mxE. Qed.
Hypothesis Hl : forall K, (Kmesh <= K <= Kmesh.+1)%N -> lgr_contract K (lgr K).
(** The outputs of a call at time t after a history ops: the trajectories are the references at the nodes plus the
    blocks of the solution of the QP. *)
Theorem C50_trajectories q co ops t x : new q = Some co -> let out := (call t x (run ops co).1).2 in
  let m := msh (run ops co).1.2 in let N := (\sum_(i < size m) N_colloc_ival m i)%N in
  let node i := tplus t (ptf q * nth 0 (all_nodes Kmesh Kmesh lgr m) i) in
  (N < uint_mod)%N ->
  [/\ size (o_us out) = N, size (o_xs out) = N.+1, nth 0 (o_us out) 0 = o_u out, o_code out = mcode (o_sol out) &
   [/\ forall i (k : 'I_Nu), (i < N)%N -> nth 0 (o_us out) i k 0 = cur_udes ops (node i) k 0 + mprimal (o_sol out) (Nx * N.+1 + Nu * i + k)%N &
       forall i (k : 'I_Nx), (i <= N)%N -> nth 0 (o_xs out) i k 0 = cur_xdes ops (node i) k 0 + mprimal (o_sol out) (Nx * i + k)%N]].
Proof.
move=> e out m N node hN.
have EN : N_colloc m = N by have [_ h _] := C26_N_colloc_partial m; exact: h.
have [eu ex _] := run_cell ops e; have ep : prm (run ops co).1.2 = q by rewrite run_prm; have [] := new_prm e.
have rm : reachable Kmesh Kmesh (fun _ _ _ => 0%N) m by rewrite /m run_msh; exact: new_reach e.
have [[s1 _ s3 _] _] := C21_nodes_weights Hl k0 (leqnn _) rm.
have n0 : nth 0 (all_nodes Kmesh Kmesh lgr m) 0 = 0 by rewrite nth0.
have us : o_us out = [seq cur_udes ops (node i) + \col_(k < Nu) mprimal (o_sol out) (Nx * (N + 1) + i * Nu + k)%N | i <- iota 0 N].
  by rewrite -EN /node -ep -eu.
have xs : o_xs out = [seq cur_xdes ops (node i) + \col_(k < Nx) mprimal (o_sol out) (0 + i * Nx + k)%N | i <- iota 0 (N + 1)].
  by rewrite -EN /node -ep -ex.
have u0 : o_u out = cur_udes ops (tplus t 0) + \col_(k < Nu) mprimal (o_sol out) (Nx * (N + 1) + k)%N.
  by rewrite -EN -eu.
have N0 : (0 < N)%N by have [n [_ _ e4 h5 _]] := C50_mesh ops e; apply: leq_trans h5; rewrite leq_max.
rewrite us xs u0 !size_map !size_iota addn1; split=> //.
  by rewrite (nth_map 0%N) ?size_iota // nth_iota // add0n mul0n addn0 /node n0 mulr0.
split=> i k hi; rewrite (nth_map 0%N) ?size_iota // nth_iota // ?add0n mxE seg_col [(i * _)%N]mulnC //.
Qed.
End Mesh.

(** * C49: several objects *)
Local Notation wop := (wop F Nx Nu Tm).
Local Notation world := (world F Nx Nu Tm S).
Local Notation wstep := (w_step Ncr tplus tminus tzero Kmesh lgr f df cr_time cr dcr crl cru analyze solve).
Local Notation wrun := (w_run Ncr tplus tminus tzero Kmesh lgr f df cr_time cr dcr crl cru analyze solve).
(** The outputs of object o, and the calls of its member functions. *)
Definition outs_of (o : nat) (l : seq (nat * mout)) : seq mout := [seq p.2 | p <- l & p.1 == o].
Fixpoint calls_of (o : nat) (l : seq wop) : seq mop :=
  match l with WOp i op :: l' => if i == o then op :: calls_of o l' else calls_of o l' | _ :: l' => calls_of o l' | [::] => [::] end.
(** Operations that set a reference trajectory. *)
Definition is_set (op : mop) : bool := match op with SetUdes _ | SetUdesRel _ _ | SetXdes _ _ | SetXdesRel _ _ _ => true | _ => false end.
Definition same_ref (c c' : cell) : Prop := [/\ xdes c = xdes c', dxdes c = dxdes c' & udes c = udes c'].
Lemma step_ref op c c' o : same_ref c c' ->
  [/\ same_ref (step op (c, o)).1.1 (step op (c', o)).1.1, (step op (c, o)).1.2 = (step op (c', o)).1.2 & (step op (c, o)).2 = (step op (c', o)).2].
Proof.
move=> [h1 h2 h3]; case: op => [u|g t0|xd dx|g d t0|w| |t x]; try by split; [split|..].
rewrite /mpc_step; have -> : call t x (c, o) = call t x (c', o) by rewrite /mpc_call /= h1 h2 h3.
by split; [split|..].
Qed.
Lemma run_ref ops c c' o : same_ref c c' -> (run ops (c, o)).2 = (run ops (c', o)).2.
Proof.
elim: ops c c' o => [//|op ops IH] c c' o h; rewrite !run_cons; have [h1 h2 h3] := step_ref op o h.
have -> : (run ops (step op (c, o)).1).2 = (run ops (step op (c', o)).1).2.
  by move: h1 h2; case: (step op (c, o)).1 (step op (c', o)).1 => [a b] [a' b'] /= h1 ->; apply: IH.
by rewrite h3.
Qed.
Lemma step_noset op co : ~~ is_set op -> same_ref (step op co).1.1 co.1.
Proof. by case: co => c o; case: op. Qed.
Lemma outs_cons o (x : option (nat * mout)) l : outs_of o (if x is Some out then out :: l else l) =
  if x is Some (i, out) then if i == o then out :: outs_of o l else outs_of o l else outs_of o l.
Proof. by case: x => // [[i out]]; rewrite /outs_of /=; case: ifP. Qed.
Lemma wrun_cons (op : wop) (l : seq wop) w : (wrun (op :: l) w).2 = (if (wstep op w).2 is Some out then out :: (wrun l (wstep op w).1).2 else (wrun l (wstep op w).1).2).
Proof. by []. Qed.

Lemma atE (A : Type) (g : nat -> A) i v : at_ g i v i = v. Proof. by rewrite /at_ eqxx. Qed.
Lemma atN (A : Type) (g : nat -> A) i v j : j != i -> at_ g i v j = g j. Proof. by rewrite /at_ => /negbTE ->. Qed.

Local Opaque mpc_step.
Section Independent.
Variable o : nat.
(** Any operation on other objects that does not set their reference trajectories; any operation on o. *)
Definition no_foreign_set (op : wop) : bool :=
  match op with WNew i _ => i != o | WCopy i j => j != o | WOp i op => (i == o) || ~~ is_set op end.
Theorem C49_no_set_partial w (ops : seq wop) ob : objs w o = Some ob -> (ptr w o < nxt w)%N -> all no_foreign_set ops ->
  outs_of o (wrun ops w).2 = (run (calls_of o ops) (heap w (ptr w o), ob)).2.
Proof.
elim: ops w ob => [//|op ops IH] w ob ho hp /andP[h1 h2]; rewrite wrun_cons outs_cons.
case: op h1 => [i q|i j|i op] h1 /=.
- case: mpc_new => [[c0 o0]|] /=; last exact: IH.
  have oi : o != i by rewrite eq_sym.
  by rewrite (IH _ ob) //= !(atN _ _ oi) // ?atN ?(ltn_eqF hp) // ltnS ltnW.
- have oj : o != j by rewrite eq_sym.
  by rewrite (IH _ ob) //= !(atN _ _ oj).
case: (eqVneq i o) h1 => [->|ne] /= h1.
  rewrite ho /=; move E : (step op _) => r; case: r E => [[c1 o1] out] E /=.
  have := IH (World (at_ (heap w) (ptr w o) c1) (nxt w) (ptr w) (at_ (objs w) o (Some o1))) o1.
  rewrite /= !atE => /(_ erefl hp h2) ->; by case: out {E} => [out|] //=; rewrite eqxx.
case ei : (objs w i) => [oi|] /=; last exact: IH.
have := IH (World (at_ (heap w) (ptr w i) (step op (heap w (ptr w i), oi)).1.1) (nxt w) (ptr w)
  (at_ (objs w) i (Some (step op (heap w (ptr w i), oi)).1.2))) ob.
have nei : o != i by rewrite eq_sym.
rewrite /= (atN _ _ nei) => /(_ ho hp h2) e.
have -> : (run (calls_of o ops) (heap w (ptr w o), ob)).2 = outs_of o (wrun ops (World (at_ (heap w) (ptr w i) (step op (heap w (ptr w i), oi)).1.1) (nxt w) (ptr w)
  (at_ (objs w) i (Some (step op (heap w (ptr w i), oi)).1.2)))).2.
  rewrite e; apply: run_ref; rewrite /at_; case: eqP => [->|_] //.
  move: h1; rewrite (negbTE ne) /= => h1.
  by have [a b c] := step_noset (heap w (ptr w i), oi) h1; split.
by case: (step op _).2 => [out|] //=; rewrite (negbTE ne).
Qed.

(** An object of which no copies exist, and is not copied: any operation on other objects. *)
Definition no_copy (op : wop) : bool :=
  match op with WNew i _ => i != o | WCopy i j => (i != o) && (j != o) | WOp _ _ => true end.
Theorem C49_unshared w (ops : seq wop) ob : objs w o = Some ob -> (forall i, objs w i -> ptr w i < nxt w)%N ->
  (forall i, i != o -> objs w i -> ptr w i != ptr w o) ->
  all no_copy ops -> outs_of o (wrun ops w).2 = (run (calls_of o ops) (heap w (ptr w o), ob)).2.
Proof.
elim: ops w ob => [//|op ops IH] w ob ho hp hi /andP[h1 h2]; rewrite wrun_cons outs_cons.
case: op h1 => [i q|i j|i op] h1 /=.
- case: mpc_new => [[c0 o0]|] /=; last exact: IH.
  have oi : o != i by rewrite eq_sym.
  have po : (ptr w o < nxt w)%N by apply: hp; rewrite ho.
  rewrite (IH _ ob) //= ?(atN _ _ oi) //; first by rewrite atN ?ltn_eqF.
    by move=> k; rewrite /at_; case: ifP => // _ hk; rewrite ltnS ltnW ?hp.
  by move=> k ne; rewrite /at_; case: ifP => [_|_]; [rewrite eq_sym ltn_eqF|exact: hi].
- move/andP: h1 => [n1 n2]; have oj : o != j by rewrite eq_sym.
  rewrite (IH _ ob) //= ?(atN _ _ oj) //; first by move=> k; rewrite /at_; case: ifP => _; exact: hp.
  by move=> k ne; rewrite /at_; case: ifP => [_|_]; exact: hi.
case: (eqVneq i o) h1 => [->|ne] /= h1.
  rewrite ho /=; move E : (step op _) => r; case: r E => [[c1 o1] out] E /=.
  have := IH (World (at_ (heap w) (ptr w o) c1) (nxt w) (ptr w) (at_ (objs w) o (Some o1))) o1.
  have hp' k : at_ (objs w) o (Some o1) k -> (ptr w k < nxt w)%N by rewrite /at_; case: eqP => [-> _|_]; apply: hp; rewrite ?ho.
  have hi' k : k != o -> at_ (objs w) o (Some o1) k -> ptr w k != ptr w o by move=> ne; rewrite atN //; exact: hi.
  rewrite /= !atE => /(_ erefl hp' hi' h2) ->; by case: out {E} => [out|] //=; rewrite eqxx.
case ei : (objs w i) => [oi|] /=; last exact: IH.
have := IH (World (at_ (heap w) (ptr w i) (step op (heap w (ptr w i), oi)).1.1) (nxt w) (ptr w)
  (at_ (objs w) i (Some (step op (heap w (ptr w i), oi)).1.2))) ob.
have nei : o != i by rewrite eq_sym.
have pp : ptr w o != ptr w i by rewrite eq_sym hi // ei.
set o1 := (step op _).1.2.
have hp' k : at_ (objs w) i (Some o1) k -> (ptr w k < nxt w)%N by rewrite /at_; case: eqP => [-> _|_]; apply: hp; rewrite ?ei.
have hi' k : k != o -> at_ (objs w) i (Some o1) k -> ptr w k != ptr w o.
  by move=> ko; rewrite /at_; case: eqP => [-> _|_]; apply: hi; rewrite ?ei.
rewrite /= (atN _ _ nei) (atN _ _ pp) => /(_ ho hp' hi' h2) e.
by case: (step op _).2 => [out|] /=; rewrite ?(negbTE ne).
Qed.
End Independent.
End Hist.
