(** Theorems on the wrapper of IPOPT: C70 (sparse derivatives), C71 (status), C79 (bounds), C80 (Hessian option). *)
From mathcomp Require Import all_ssreflect all_algebra.
From Verif Require Import QpModel LinAlg QpSpec SparseModel SparseFacts IpoptModel.
Set Implicit Arguments.
Unset Strict Implicit.
Unset Printing Implicit Defensive.
Import Order.TTheory GRing.Theory Num.Theory.
Local Open Scope ring_scope.

Section Props.
Variable F : realFieldType.
Local Notation vec := (nat -> F).

(** The matrix that IPOPT makes of positions L and values V: values at the same position are added. *)
Definition trip (L : seq (nat * nat)) (V : seq F) (i j : nat) : F :=
  \sum_(k < size L | nth (0, 0)%N L k == (i, j)) nth 0 V k.

Lemma mem_order rm rows cols p : (p \in order rm rows cols) = (p.1 < rows)%N && (p.2 < cols)%N.
Proof.
rewrite /order; case: rm; last by case: p => r c; rewrite mem_pos.
apply/allpairsP/andP => [[[r c] /= [hr hc ->]]|[h1 h2]]; first by move: hr hc; rewrite !mem_iota /= !add0n.
by exists p; split; rewrite ?mem_iota ?add0n //; case: p {h1 h2}.
Qed.
Lemma uniq_order rm rows cols : uniq (order rm rows cols).
Proof.
rewrite /order; case: rm; last exact: uniq_pos.
by rewrite allpairs_uniq ?iota_uniq // => -[a b] [c d].
Qed.
Lemma mem_stored rm rows cols (M : smat F) p :
  (p \in stored rm rows cols M) = [&& (p.1 < rows)%N, (p.2 < cols)%N & isSome (M p.1 p.2)].
Proof. by rewrite mem_filter mem_order andbC andbA. Qed.
Lemma uniq_stored rm rows cols (M : smat F) : uniq (stored rm rows cols M).
Proof. by rewrite filter_uniq // uniq_order. Qed.
Lemma eq_stored rm rows cols (M M' : smat F) :
  (forall r c, (r < rows)%N -> (c < cols)%N -> isSome (M r c) = isSome (M' r c)) -> stored rm rows cols M = stored rm rows cols M'.
Proof. by move=> h; apply: eq_in_filter => -[r c]; rewrite mem_order => /andP[]; exact: h. Qed.
Lemma trip_map (g : nat * nat -> nat * nat) (f : nat * nat -> F) L p : injective g -> uniq L ->
  trip (map g L) (map f L) (g p).1 (g p).2 = if p \in L then f p else 0.
Proof.
move=> gi uL; rewrite /trip size_map -surjective_pairing.
rewrite (eq_big (fun k : 'I_(size L) => nth p L k == p) (fun k : 'I_(size L) => f (nth p L k))); first last.
- by move=> k _; rewrite (nth_map p).
- by move=> k; rewrite (nth_map p) // (inj_eq gi).
rewrite -(big_mkord (fun k => nth p L k == p) (fun k => f (nth p L k))) -(big_nth p (fun x => x == p) f).
case: ifP => hp.
  rewrite big_mkcond (bigD1_seq p) //= eqxx big1 ?addr0 // => i /negbTE -> //.
by rewrite big_seq_cond big1 // => i /andP[iL /eqP e]; move: hp; rewrite -e iL.
Qed.

Lemma isSome_sadd (A B : smat F) r c : isSome (sadd A B r c) = isSome (A r c) || isSome (B r c).
Proof. by rewrite /sadd; case: ifP. Qed.
Lemma val_sadd (A B : smat F) r c : val (sadd A B) r c = val A r c + val B r c.
Proof. by rewrite /sadd /val; case: (A r c) => [a|]; case: (B r c) => [b|] //=; rewrite addr0. Qed.
Lemma isSome_smul s (A : smat F) r c : isSome (smul s A r c) = isSome (A r c).
Proof. by rewrite /smul; case: (A r c). Qed.
Lemma val_smul s (A : smat F) r c : val (smul s A) r c = val A r c * s.
Proof. by rewrite /smul /val; case: (A r c) => [a|] //=; rewrite mul0r. Qed.
Lemma isSome_zero (H : smat F) r c : isSome (set_zero H r c) = isSome (H r c).
Proof. by rewrite /set_zero; case: (H r c). Qed.

(** * C70 *)
(** What IPOPT relies on: in every state of the problem that its methods can reach (inv), the derivatives are J, Hf and
    Hg, the stored entries of dg_dx are always the same (pJ), and those of the Hessians are among the ones that are
    stored for x = 0 and lambda = 0 (pH). *)
Record nlp_ok (S : Type) (P : problem F S) (inv : S -> Prop) (J : vec -> nat -> nat -> F) (Hf : vec -> nat -> nat -> F)
    (Hg : vec -> vec -> nat -> nat -> F) (pJ pH : nat -> nat -> bool) : Prop := NlpOk {
  inv_f : forall s x, inv s -> inv (p_f P s x).1;
  inv_df : forall s x, inv s -> inv (p_df P s x).1;
  inv_g : forall s x, inv s -> inv (p_g P s x).1;
  inv_dg : forall s x, inv s -> inv (p_dg P s x).1;
  inv_d2f : forall s x, inv s -> inv (p_d2f P s x).1;
  inv_d2g : forall s x l, inv s -> inv (p_d2g P s x l).1;
  val_dg : forall s x r c, inv s -> (r < p_m P)%N -> (c < p_n P)%N -> val (p_dg P s x).2 r c = J x r c;
  pat_dg : forall s x r c, inv s -> (r < p_m P)%N -> (c < p_n P)%N -> isSome ((p_dg P s x).2 r c) = pJ r c;
  val_d2f : forall s x r c, inv s -> (r < p_n P)%N -> (c < p_n P)%N -> val (p_d2f P s x).2 r c = Hf x r c;
  val_d2g : forall s x l r c, inv s -> (r < p_n P)%N -> (c < p_n P)%N -> val (p_d2g P s x l).2 r c = Hg x l r c;
  pat_d2f : forall s x r c, inv s -> (r < p_n P)%N -> (c < p_n P)%N -> isSome ((p_d2f P s x).2 r c) -> pH r c;
  pat_d2g : forall s x l r c, inv s -> (r < p_n P)%N -> (c < p_n P)%N -> isSome ((p_d2g P s x l).2 r c) -> pH r c;
  pat_0 : forall s s' r c, inv s -> inv s' -> (r < p_n P)%N -> (c < p_n P)%N -> pH r c ->
    isSome ((p_d2f P s (fun=> 0)).2 r c) || isSome ((p_d2g P s' (fun=> 0) (fun=> 0)).2 r c);
  upper : forall r c, pH r c -> (r <= c)%N }.

Section C70.
Variables (S : Type) (P : problem F S) (inv : S -> Prop) (J : vec -> nat -> nat -> F) (Hf : vec -> nat -> nat -> F)
  (Hg : vec -> vec -> nat -> nat -> F) (pJ pH : nat -> nat -> bool).
Hypothesis ok : nlp_ok P inv J Hf Hg pJ pH.
Local Notation n := (p_n P).
Local Notation m := (p_m P).
Variables (uh : bool) (s0 : S) (H0 : smat F).
Hypothesis i0 : inv s0.
Local Notation info := (get_nlp_info P uh (Ist s0 H0)).
Local Notation LJ := (stored (p_rm P) m n (fun r c => if pJ r c then Some (0 : F) else None)).
Local Notation LH := (stored false n n (fun r c => if pH r c then Some (0 : F) else None)).

Definition good (st : ist F S) : Prop :=
  inv (i_s st) /\ (uh -> forall r c, (r < n)%N -> (c < n)%N -> isSome (i_H st r c) = pH r c).
Lemma LJE s x : inv s -> stored (p_rm P) m n (p_dg P s x).2 = LJ.
Proof. by move=> h; apply: eq_stored => r c hr hc; rewrite (pat_dg ok) //; case: (pJ r c). Qed.
Lemma LHE (H : smat F) : (forall r c, (r < n)%N -> (c < n)%N -> isSome (H r c) = pH r c) -> stored false n n H = LH.
Proof. by move=> h; apply: eq_stored => r c hr hc; rewrite h //; case: (pH r c). Qed.
Lemma good_info : good info.1.
Proof.
rewrite /get_nlp_info /=; have := inv_dg ok (fun=> 0) i0; case: (p_dg P s0 _) => s J0 /= h1.
case: ifP => // u; last by split; rewrite ?u.
have := inv_d2f ok (fun=> 0) h1; have V := @pat_d2f _ _ _ _ _ _ _ _ ok s (fun=> 0); have W := @pat_0 _ _ _ _ _ _ _ _ ok s.
case: (p_d2f P s _) V W => s1 H1 /= V W h2.
have := inv_d2g ok (fun=> 0) (fun=> 0) h2; have V' := @pat_d2g _ _ _ _ _ _ _ _ ok s1 (fun=> 0) (fun=> 0); have {}W := W s1.
case: (p_d2g P s1 _ _) V' W => s2 H2 /= V' W h3; split=> //= _ r c hr hc; rewrite /sadd.
have e : isSome (H1 r c) || isSome (H2 r c) = pH r c.
  apply/orP/idP => [[h|h]|h]; [exact: V h|exact: V' h|exact/orP/W].
by rewrite -e; case: ifP.
Qed.
(** The matrix of a value call. *)
Lemma eval_hE st x sg l : good st -> uh ->
  [/\ inv (i_s (eval_h_v P st x sg l).1),
      forall r c, (r < n)%N -> (c < n)%N -> isSome (i_H (eval_h_v P st x sg l).1 r c) = pH r c &
      (eval_h_v P st x sg l).2 = [seq sg * Hf x rc.1 rc.2 + Hg x l rc.1 rc.2 | rc <- LH]].
Proof.
case=> iv hs u; rewrite /eval_h_v.
have := inv_d2f ok x iv; have V := @pat_d2f _ _ _ _ _ _ _ _ ok (i_s st) x; have W := @val_d2f _ _ _ _ _ _ _ _ ok (i_s st) x.
case: (p_d2f P _ x) V W => s1 H1 /= V W h1.
have := inv_d2g ok x l h1; have V' := @pat_d2g _ _ _ _ _ _ _ _ ok s1 x l; have W' := @val_d2g _ _ _ _ _ _ _ _ ok s1 x l.
case: (p_d2g P s1 x l) V' W' => s2 H2 /= V' W' h2.
set H := sadd _ H2; have e r c : (r < n)%N -> (c < n)%N -> isSome (H r c) = pH r c.
  move=> hr hc; have V0 := V r c iv hr hc; have V1 := V' r c h1 hr hc.
  rewrite /H isSome_sadd isSome_smul isSome_sadd isSome_zero hs //; case: (pH r c) V0 V1 => //.
  by case: (isSome (H1 r c)) => [/(_ isT)|_] //; case: (isSome (H2 r c)) => [/(_ isT)|_].
split=> //; rewrite (LHE e); apply/eq_in_map => -[r c]; rewrite mem_stored /= => /and3P[hr hc _].
by rewrite /H val_sadd val_smul val_sadd val_set_zero add0r W // W' // mulrC.
Qed.
Lemma good_step st c : good st -> (if c is CHs then uh else if c is CHv _ _ _ then uh else true) -> good (step P st c).
Proof.
move=> g; have [iv hs] := g; case: c => [x|x|x||x||x sg l] /= u.
- by have := inv_f ok x iv; rewrite /eval_f; case: (p_f P _ x).
- by have := inv_df ok x iv; rewrite /eval_grad_f; case: (p_df P _ x).
- by have := inv_g ok x iv; rewrite /eval_g; case: (p_g P _ x).
- by have := inv_dg ok (fun=> 0) iv; rewrite /eval_jac_s; case: (p_dg P _ _).
- by have := inv_dg ok x iv; rewrite /eval_jac_v; case: (p_dg P _ _).
- by split=> // _ r c hr hc; rewrite isSome_zero hs.
- by have [h1 h2 _] := eval_hE x sg l g u.
Qed.
(** IPOPT evaluates the Hessian only if it was told to use it. *)
Definition calls_ok (h : seq (call F)) : bool := all (fun c => if c is CHs then uh else if c is CHv _ _ _ then uh else true) h.
Lemma good_run h : calls_ok h -> good (run P info.1 h).
Proof.
rewrite /run; elim/last_ind: h => [|h c IH]; first by move=> _; exact: good_info.
by rewrite /calls_ok all_rcons foldl_rcons => /andP[hc hh]; apply: good_step => //; exact: IH.
Qed.

(** After every history of calls, what a call for positions returns (state st) and what a call for values returns
    (state st') fit together, and give the Jacobian. *)
Theorem C70_jacobian h h' x : calls_ok h -> calls_ok h' ->
  let L := (eval_jac_s P (run P info.1 h)).2 in
  let V := (eval_jac_v P (run P info.1 h') x).2 in
  [/\ size L = info.2.1.2, size V = info.2.1.2,
      forall p, p \in L -> (p.1 < m)%N && (p.2 < n)%N &
      forall i j, (i < m)%N -> (j < n)%N -> trip L V i j = J x i j].
Proof.
move=> /good_run[iv _] /good_run[iv2 _] L V.
have eL : L = LJ by rewrite /L /eval_jac_s -(LJE (fun=> 0) iv); case: (p_dg P _ _).
have eV : V = [seq J x p.1 p.2 | p <- LJ].
  rewrite /V /eval_jac_v -(LJE x iv2); have := @val_dg _ _ _ _ _ _ _ _ ok _ x; move/(_ _ _ _ iv2).
  case: (p_dg P _ _) => s M /= e; apply/eq_in_map => -[r c]; rewrite mem_stored => /and3P[/= hr hc _]; exact: e.
have eI : info.2.1.2 = size LJ.
  rewrite /get_nlp_info /= -(LJE (fun=> 0) i0); case: (p_dg P _ _) => s M; case: ifP => // _.
  by case: (p_d2f P _ _) => s1 H1; case: (p_d2g P _ _ _).
split; [by rewrite eI eL|by rewrite eI eV size_map|by move=> p; rewrite eL mem_stored => /and3P[-> ->]|move=> i j hi hj].
rewrite eL eV.
have := @trip_map id (fun p => J x p.1 p.2) LJ (i, j) (fun _ _ e => e) (uniq_stored _ _ _ _).
rewrite map_id /= => ->; rewrite mem_stored hi hj /=.
case E : (pJ i j) => //=; rewrite -(val_dg ok x i0) // /val.
by have := pat_dg ok x i0 hi hj; rewrite E; case: (_ i j).
Qed.
Theorem C70_hessian h h' x sg l : uh -> calls_ok h -> calls_ok h' ->
  let L := (eval_h_s P (run P info.1 h)).2 in
  let V := (eval_h_v P (run P info.1 h') x sg l).2 in
  [/\ size L = info.2.2, size V = info.2.2,
      forall p, p \in L -> (p.2 <= p.1 < n)%N &
      forall i j, (j <= i < n)%N -> trip L V i j = sg * Hf x j i + Hg x l j i].
Proof.
move=> u /good_run[iv hs] /good_run g' L V.
have eL : L = [seq (p.2, p.1) | p <- LH] by rewrite /L /= (LHE (H := set_zero _)) // => r c hr hc; rewrite isSome_zero hs.
have eV : V = [seq sg * Hf x p.1 p.2 + Hg x l p.1 p.2 | p <- LH] by have [_ _] := eval_hE x sg l g' u.
have eI : info.2.2 = size LH.
  have [_ /(_ u)] := good_info; rewrite /get_nlp_info /= u; case: (p_dg P _ _) => s M.
  by case: (p_d2f P _ _) => s1 H1; case: (p_d2g P _ _ _) => s2 H2 /= e; rewrite (LHE e).
split; [by rewrite eI eL size_map|by rewrite eI eV size_map|move=> p; rewrite eL|move=> i j /andP[ji hi]; rewrite eL eV].
  by case/mapP => -[r c]; rewrite mem_stored /= => /and3P[hr hc hp] -> /=; rewrite hc andbT; apply: (upper ok); case: (pH r c) hp.
have hj : (j < n)%N by exact: leq_ltn_trans hi.
have inj : injective (fun p : nat * nat => (p.2, p.1)) by move=> [a b] [c d] [-> ->].
have := @trip_map _ (fun p => sg * Hf x p.1 p.2 + Hg x l p.1 p.2) LH (j, i) inj (uniq_stored _ _ _ _) => /= ->.
rewrite mem_stored hi hj /=; case E : (pH j i) => //=.
have i1 := inv_d2f ok x i0; rewrite -(val_d2f ok x i0) // -(val_d2g ok x l i0) // /val.
have := @pat_d2f _ _ _ _ _ _ _ _ ok _ x j i i0 hj hi; have := @pat_d2g _ _ _ _ _ _ _ _ ok _ x l j i i0 hj hi; rewrite E.
by case: (_ j i) => [a /(_ isT) //|_]; case: (_ j i) => [a /(_ isT) //|_]; rewrite /= mulr0 addr0.
Qed.
End C70.
End Props.

(** * C71, C79 and C80 *)
Section Others.
Variable F : realFieldType.

(** If IPOPT calls finalize_solution, the result is what it reports: Optimal exactly for its two statuses of success. *)
Theorem C71_ipopt_partial n junk warm (ipopt : bool -> nsol F -> option (fin F)) a :
  ipopt (isSome warm) (if warm is Some w then w else NSol junk 0 (nseq n 0) [::] [::] [::] 0) = Some a ->
  let s := solve_nlp_ipopt n junk warm ipopt in
  [/\ n_status s = NOptimal <-> f_ret a = SUCCESS \/ f_ret a = STOP_AT_ACCEPTABLE_POINT,
      n_status s = NPrimalInfeasible <-> f_ret a = LOCAL_INFEASIBILITY,
      n_status s = NMaxIterations <-> f_ret a = MAXITER_EXCEEDED,
      n_status s = NMaxTime <-> f_ret a = CPUTIME_EXCEEDED &
      [/\ n_x s = f_x a, n_zl s = f_zl a, n_zu s = f_zu a, n_lam s = f_lam a & n_obj s = f_obj a]].
Proof.
move=> e s; have {s} -> : s = finalize_solution a by rewrite /s /solve_nlp_ipopt e.
rewrite /finalize_solution /=; case: (f_ret a); split=> //; split=> //; first [by left | by right | by case].
Qed.

(** C79.  What IPOPT makes of bounds: values below -1e19 and above 1e19 mean no bound
    (options nlp_lower_bound_inf and nlp_upper_bound_inf). *)
Definition ipopt_lo (b : ext F) (v : F) : bool :=
  match b with NegInf => true | Fin a => (a <= - (10%:R ^+ 19)) || (a <= v) | PosInf => false end.
Definition ipopt_hi (b : ext F) (v : F) : bool :=
  match b with PosInf => true | Fin a => (10%:R ^+ 19 <= a) || (v <= a) | NegInf => false end.
Definition small_lo (b : ext F) : Prop := if b is Fin a then - (10%:R ^+ 19) < a else True.
Definition small_hi (b : ext F) : Prop := if b is Fin a then a < 10%:R ^+ 19 else True.
Lemma big_gt : (10%:R : F) ^+ 19 < big F.
Proof.
rewrite /big -[X in X < _]mul1r ltr_pmul2r; first by rewrite ltr1n.
by apply: exprn_gt0; rewrite ltr0n.
Qed.
Lemma lo_same b v : small_lo b -> ipopt_lo (lo b) v = lo_ok b v.
Proof.
case: b => [|a|] //= h.
  by rewrite ler_opp2 (ltW big_gt).
have -> : Num.max a (- big F) = a by apply/max_idPl; rewrite (le_trans _ (ltW h)) // ler_opp2 (ltW big_gt).
by rewrite leNgt h.
Qed.
Lemma hi_same b v : small_hi b -> ipopt_hi (hi b) v = hi_ok b v.
Proof.
case: b => [|a|] //= h; last by rewrite (ltW big_gt).
have -> : Num.min a (big F) = a by apply/min_idPl; rewrite (le_trans (ltW h)) // (ltW big_gt).
by rewrite leNgt h.
Qed.
(** The bounds handed to IPOPT have the meaning of those of the problem. *)
Theorem C79_bounds_partial S (P : problem F S) i v :
  let: (xl, xu, gl, gu) := get_bounds_info P in
  (small_lo (p_xl P i) -> small_hi (p_xu P i) -> ipopt_lo (xl i) v && ipopt_hi (xu i) v = between (p_xl P i) (p_xu P i) v) /\
  (small_lo (p_gl P i) -> small_hi (p_gu P i) -> ipopt_lo (gl i) v && ipopt_hi (gu i) v = between (p_gl P i) (p_gu P i) v).
Proof. by rewrite /=; split=> h1 h2; rewrite lo_same // hi_same. Qed.

(** C80.  IPOPT uses exact Hessians unless the last value set for the option is another one. *)
Definition ipopt_exact (T V : eqType) (key : T) (exact : V) (opts : seq (T * V)) : bool :=
  last exact [seq p.2 | p <- opts & p.1 == key] == exact.
Theorem C80_hessian_partial (T V : eqType) (key : T) (exact : V) opts : count (fun p => p.1 == key) opts = 1%N ->
  use_hessian key exact opts = ipopt_exact key exact opts.
Proof.
rewrite /use_hessian /ipopt_exact -size_filter.
by case: (filter _ opts) => [|p [|]].
Qed.
(** The wrapper and IPOPT agree exactly if the option is given, and the first and the last value are both exact or both not. *)
Theorem C80_hessian_iff (T V : eqType) (key : T) (exact : V) opts :
  (use_hessian key exact opts = ipopt_exact key exact opts) <->
  ((head exact [seq p.2 | p <- opts & p.1 == key] == exact) = (last exact [seq p.2 | p <- opts & p.1 == key] == exact)
    /\ has (fun p => p.1 == key) opts).
Proof.
rewrite /use_hessian /ipopt_exact has_filter; case: (filter _ opts) => [|p l] /=.
  by rewrite eqxx; split=> // -[].
by split=> [->|[]].
Qed.
End Others.
