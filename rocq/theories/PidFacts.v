(** Lemmas about the PID model. *)
From mathcomp Require Import all_ssreflect all_algebra.
From Verif Require Import PidModel PidSpec.
Set Implicit Arguments.
Unset Strict Implicit.
Unset Printing Implicit Defensive.
Import Order.TTheory GRing.Theory Num.Theory.
Local Open Scope ring_scope.

Section Facts.
Variables (F : realFieldType) (d : nat) (G T : Type).
Variable gminus : G -> G -> 'cV[F]_d.
Variable gone : G.
Variable tgt : T -> T -> bool.
Variable tminus : T -> T -> F.
Notation op := (op F d G T).
Notation run := (pid_run gminus gone tgt tminus).
Notation calls := (calls gminus gone tminus).
Notation last_xdes := (last_xdes gone tminus).

Lemma run_rcons w h o : run w (rcons h o) = pid_step gminus tgt tminus (run w h) o.
Proof. by rewrite /pid_run foldl_rcons. Qed.

Lemma run_wl w h : wl (run w h) = w.
Proof.
elim/last_ind: h => [//|h o IH]; rewrite run_rcons; case: o => //= t x v; rewrite /pid_call.
by case: (x_des _ t) => [[g vd] ad].
Qed.

Lemma pmap_rcons (A B : Type) (f : A -> option B) s x :
  pmap f (rcons s x) = if f x is Some y then rcons (pmap f s) y else pmap f s.
Proof. by rewrite -cats1 pmap_cat /=; case: (f x) => [y|] /=; rewrite ?cats1 ?cats0. Qed.

Lemma run_kp w h : kp (run w h) = last_kp h.
Proof.
elim/last_ind: h => [//|h o IH]; rewrite run_rcons /last_kp pmap_rcons.
case: o => //=; try by move=> *; rewrite ?last_rcons.
by move=> t x v; rewrite /pid_call; case: (x_des _ t) => [[g vd] ad].
Qed.
Lemma run_kd w h : kd (run w h) = last_kd h.
Proof.
elim/last_ind: h => [//|h o IH]; rewrite run_rcons /last_kd pmap_rcons.
case: o => //=; try by move=> *; rewrite ?last_rcons.
by move=> t x v; rewrite /pid_call; case: (x_des _ t) => [[g vd] ad].
Qed.
Lemma run_ki w h : ki (run w h) = last_ki h.
Proof.
elim/last_ind: h => [//|h o IH]; rewrite run_rcons /last_ki pmap_rcons.
case: o => //=; try by move=> *; rewrite ?last_rcons.
by move=> t x v; rewrite /pid_call; case: (x_des _ t) => [[g vd] ad].
Qed.
Lemma run_xdes w h : x_des (run w h) = last_xdes h.
Proof.
elim/last_ind: h => [//|h o IH]; rewrite run_rcons /PidSpec.last_xdes pmap_rcons.
case: o => //=; try by move=> *; rewrite ?last_rcons.
by move=> t x v; rewrite /pid_call; case: (x_des _ t) => [[g vd] ad].
Qed.

Lemma calls_from_rcons h r o :
  calls_from gminus gone tminus h (rcons r o) =
  if o is OCall t x v
  then rcons (calls_from gminus gone tminus h r) (t, err_at gminus gone tminus (h ++ r) t x)
  else calls_from gminus gone tminus h r.
Proof.
elim: r h => [|a r IH] h /=; first by rewrite cats0; case: o.
have E a' : rcons h a' ++ r = h ++ a' :: r by rewrite -cats1 -catA.
by case: a; move=> *; rewrite IH E; case: (o).
Qed.

Lemma calls_rcons h o :
  calls (rcons h o) =
  if o is OCall t x v then rcons (calls h) (t, err_at gminus gone tminus h t x) else calls h.
Proof. by rewrite /PidSpec.calls calls_from_rcons. Qed.

Lemma size_calls h : size (calls h) = count (@is_call F d G T) h.
Proof.
elim/last_ind: h => [//|h o IH]; rewrite calls_rcons -cats1 count_cat /=.
by case: o => *; rewrite /= ?size_rcons IH ?addn0 ?addn1.
Qed.

Lemma cbr_rcons (h : seq op) o :
  calls_before_reset (rcons h o) =
  if is_reset o then count (@is_call F d G T) h else calls_before_reset h.
Proof.
rewrite /calls_before_reset rev_rcons size_rcons /=; case: ifP => R.
  rewrite subn0 take_oversize ?size_rcons // -cats1 count_cat /=.
  by rewrite (_ : is_call o = false) ?addn0 //; case: o R.
rewrite subSS -cats1 takel_cat // leq_subr //.
Qed.

Lemma cbr_le (h : seq op) : (calls_before_reset h <= size (calls h))%N.
Proof. by rewrite size_calls /calls_before_reset -[X in (_ <= count _ X)%N](cat_take_drop (size h - find (@is_reset F d G T) (rev h))) count_cat leq_addr. Qed.

Lemma run_tlast w h : t_last (run w h) = omap fst (ohead (rev (calls h))).
Proof.
elim/last_ind: h => [//|h o IH]; rewrite run_rcons calls_rcons.
case: o => //= t x v; rewrite rev_rcons /= /pid_call.
by case: (x_des _ t) => [[g vd] ad].
Qed.

Lemma ohead_drop_rcons (A : Type) (s : seq A) x k :
  (k < size s)%N -> ohead (drop k (rcons s x)) = ohead (drop k s).
Proof. elim: s k => [//|a s IH] [|k] //=; exact: IH. Qed.
Lemma ohead_drop_rcons_last (A : Type) (s : seq A) x : ohead (drop (size s) (rcons s x)) = Some x.
Proof. by elim: s. Qed.
Lemma ohead_drop_last (A : Type) (s : seq A) : ohead (drop (size s).-1 s) = ohead (rev s).
Proof. by elim/last_ind: s => [//|s x _]; rewrite size_rcons /= ohead_drop_rcons_last rev_rcons. Qed.

Lemma contrib_rcons (c : seq (T * 'cV[F]_d)) x k :
  (k < size c)%N -> contrib tgt tminus (rcons c x) k = contrib tgt tminus c k.
Proof.
case: k => [//|k] /= H; rewrite ohead_drop_rcons ?(ltnW H) //.
by rewrite (ohead_drop_rcons _ H).
Qed.

(** The integral update performed by a call equals the contribution of that call. *)
Lemma call_ierr w h t x v :
  i_err (run w (rcons h (OCall t x v))) =
  if omap fst (ohead (rev (calls h))) is Some tl then
    if tgt t tl then clampv w (i_err (run w h) + tminus t tl *: err_at gminus gone tminus h t x)
    else i_err (run w h)
  else i_err (run w h).
Proof.
rewrite run_rcons /= /pid_call run_xdes run_wl run_tlast /err_at.
case: (last_xdes h t) => [[g vd] ad] /=.
by case: (ohead _).
Qed.

Lemma contrib_last h t x v :
  contrib tgt tminus (calls (rcons h (OCall t x v))) (size (calls h)) =
  if omap fst (ohead (rev (calls h))) is Some tl then
    if tgt t tl then tminus t tl *: err_at gminus gone tminus h t x else 0
  else 0.
Proof.
rewrite calls_rcons; set c := calls h; rewrite -ohead_drop_last.
case E: (size c) => [|n]; first by move/size0nil: E => ->.
rewrite /contrib ohead_drop_rcons ?E // -E ohead_drop_rcons_last E /=.
by case: (ohead _) => [[t' e']|].
Qed.

Lemma integral_run h : i_err (run None h) = integral gminus gone tgt tminus h.
Proof.
elim/last_ind: h => [|h o IH].
  by rewrite /integral /PidSpec.calls /= big_geq.
have cl := cbr_le h.
rewrite /integral cbr_rcons.
case: o => [t x v|k|k|k|k|k|k||f|t0 c].
- rewrite call_ierr /= IH.
  rewrite {1}calls_rcons size_rcons big_nat_recr //=.
  rewrite contrib_last.
  have -> : \sum_(calls_before_reset h <= i < size (calls h))
             contrib tgt tminus (calls (rcons h (OCall t x v))) i = integral gminus gone tgt tminus h.
    rewrite /integral; apply: eq_big_nat => i /andP [_ lt].
    by rewrite calls_rcons contrib_rcons.
  by case: (omap _ _) => [tl|]; rewrite ?addr0 //; case: (tgt _ _); rewrite ?addr0.
all: rewrite run_rcons calls_rcons /= ?IH //.
by rewrite -size_calls big_geq.
Qed.

Lemma saturateE (b : F) (v : 'cV[F]_d) : 0 <= b -> clampv (Some b) v = saturate b v.
Proof.
move=> b0; apply/matrixP => i j; rewrite !mxE minElt maxElt.
have nb : - b <= b by rewrite (le_trans _ b0) // oppr_le0.
case: (ltP (v i 0) (- b)) => h1.
  by case: (ltP (- b) b) => // h2; apply/eqP; rewrite eq_le nb h2.
by case: (ltP (v i 0) b) => h2; case: (ltP b (v i 0)) => h3 //; apply/eqP; rewrite eq_le ?h2 ?h3 ?(ltW h2) ?(ltW h3).
Qed.
Lemma saturate_in (b : F) (v : 'cV[F]_d) i : 0 <= b -> `|saturate b v i 0| <= b.
Proof.
move=> b0; rewrite mxE ler_norml.
have nb : - b <= b by rewrite (le_trans _ b0) // oppr_le0.
case: ltP => h1; first by rewrite lexx nb.
by case: ltP => h2; rewrite ?lexx ?nb ?h1 ?h2.
Qed.
Lemma saturate_id (b : F) (v : 'cV[F]_d) : (forall i, `|v i 0| <= b) -> saturate b v = v.
Proof.
move=> h; apply/matrixP => i j; rewrite !mxE (ord1 j).
have:= h i; rewrite ler_norml => /andP [h1 h2].
by rewrite ltNge h1 /= ltNge h2.
Qed.

Lemma integral_sat_bound b h i :
  0 <= b -> `|integral_sat gminus gone tgt tminus b h i 0| <= b.
Proof.
move=> b0; rewrite /integral_sat; set l := index_iota _ _.
elim/last_ind: l => [|l k _]; first by rewrite /= mxE normr0.
by rewrite foldl_rcons saturate_in.
Qed.

Lemma integral_sat_run b h :
  0 <= b -> i_err (run (Some b) h) = integral_sat gminus gone tgt tminus b h.
Proof.
move=> b0; elim/last_ind: h => [|h o IH].
  by rewrite /integral_sat /PidSpec.calls /=.
have cl := cbr_le h.
have IHb i := integral_sat_bound h i b0.
rewrite /integral_sat cbr_rcons.
case: o => [t x v|k|k|k|k|k|k||f|t0 c].
- rewrite call_ierr /= IH {2}calls_rcons size_rcons.
  have -> : index_iota (calls_before_reset h) (size (calls h)).+1 =
            rcons (index_iota (calls_before_reset h) (size (calls h))) (size (calls h)).
    by rewrite /index_iota subSn // -addn1 iotaD /= cats1 subnKC.
  rewrite foldl_rcons contrib_last.
  set A := foldl _ _ _.
  have -> : A = integral_sat gminus gone tgt tminus b h.
    rewrite /A /integral_sat.
    have: {in index_iota (calls_before_reset h) (size (calls h)), forall k,
       contrib tgt tminus (calls (rcons h (OCall t x v))) k = contrib tgt tminus (calls h) k}.
      by move=> k; rewrite mem_index_iota => /andP [_ lt]; rewrite calls_rcons contrib_rcons.
    elim/last_ind: (index_iota _ _) => [//|l k IHl] H.
    rewrite !foldl_rcons H ?mem_rcons ?inE ?eqxx //.
    by rewrite IHl // => j jl; apply: H; rewrite mem_rcons inE jl orbT.
  case: (omap _ _) => [tl|]; last by rewrite addr0 saturate_id.
  by case: (tgt _ _); [rewrite -saturateE | rewrite addr0 saturate_id].
all: rewrite run_rcons calls_rcons /= ?IH //.
by rewrite -size_calls /index_iota subnn.
Qed.

Lemma call_out w h t x v :
  let s' := run w (rcons h (OCall t x v)) in
  (pid_call gminus tgt tminus (run w h) t x v).2 =
  (last_xdes h t).2 + cprod (last_kp h) (err_at gminus gone tminus h t x)
    + cprod (last_kd h) ((last_xdes h t).1.2 - v) + cprod (last_ki h) (i_err s').
Proof.
rewrite /= run_rcons /= /pid_call run_xdes run_wl run_tlast run_kp run_kd run_ki /err_at.
by case: (last_xdes h t) => [[g vd] ad] /=.
Qed.
End Facts.
