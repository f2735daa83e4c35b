(** Properties C17-C26: the collocation mesh. *)
From mathcomp Require Import all_ssreflect all_algebra zify.
From mathcomp.algebra_tactics Require Import ring.
From Verif Require Import MeshModel MeshSpec PolyFacts MeshFacts MeshQuad MeshEval.
Set Implicit Arguments.
Unset Strict Implicit.
Unset Printing Implicit Defensive.
Import Order.TTheory GRing.Theory Num.Theory.
Local Open Scope ring_scope.

Section Props.
Variable F : realFieldType.
Variables Kmin Kmax : nat.
Variable lgr : nat -> seq F * seq F.
Variable bis : seq F -> F -> option nat.
Variable kinc : nat -> F -> F -> nat.
Implicit Type m : seq (nat * F).
Notation reach := (reachable Kmin Kmax kinc).

(** C17: after any sequence of operations the mesh starts at 0, its left end points increase strictly
    and stay below 1; in particular every interval has positive length. *)
Theorem C17_mesh_is_partition m : (0 < Kmin)%N -> (Kmin <= Kmax)%N -> reach m ->
  is_partition m /\ forall i, (i < size m)%N -> tau0 m i < tauf m i.
Proof.
move=> k0 km [om [os [c e]]]; have [p _] := run_inv k0 km c e; split=> // i; exact: partition_lt.
Qed.

(** C18: every interval has between Kmin and Kmax+1 points, i.e. precomputed nodes exist for it. *)
Theorem C18_mesh_degrees m : (0 < Kmin)%N -> (Kmin <= Kmax)%N -> reach m ->
  forall i, (i < size m)%N -> (Kmin <= N_colloc_ival m i <= Kmax.+1)%N.
Proof. by move=> k0 km [om [os [c e]]] i; have [_ r] := run_inv k0 km c e; apply: range_at. Qed.

(** C19: refine_ph replaces exactly interval i: the intervals before and after it are unchanged, and in
    place of i it leaves max(2, ceil(D/Kmin)) intervals of equal length if D or the degree exceeds Kmax
    (the first one keeps the old degree, the others have Kmin points), else one interval with degree
    max(D, old degree). *)
Theorem C19_refine_ph_partial m i D : (0 < Kmin)%N -> (Kmin <= Kmax)%N -> (i < size m)%N ->
  let K := N_colloc_ival m i in
  let a := tau0 m i in
  let b := tauf m i in
  let n := maxn 2 ((D + Kmin - 1) %/ Kmin) in
  exists mid, [/\ refine_ph Kmin Kmax i D m = Some (take i m ++ mid ++ drop i.+1 m),
    (Kmax < D)%N || (Kmax < K)%N ->
      size mid = n /\ forall j, (j < n)%N ->
        nth (0%N, 0) mid j = (if j is 0 then K else Kmin, a + j%:R * ((b - a) / n%:R)) &
    ~~ ((Kmax < D)%N || (Kmax < K)%N) -> mid = [:: (maxn D K, a)]].
Proof.
move=> k0 km h K a b n.
exists (refined Kmin Kmax K K D a b); split; first exact: refine_phE.
  rewrite /refined => ->.
  have n2 : (2 <= n)%N by rewrite leq_maxl.
  rewrite /split_into /n_split -/n /= size_map size_iota; split; first by lia.
  case=> [|j] hj /=; first by rewrite mul0r addr0.
  have hj1 : (j < n.-1)%N by lia.
  by rewrite (nth_map 0%N) ?size_iota ?nth_iota.
rewrite /refined => /negbTE ->.
by case: ltnP.
Qed.

(** ceil(D / Kmin) *)
Lemma C19_ceil D : (0 < Kmin)%N ->
  let q := ((D + Kmin - 1) %/ Kmin)%N in (D <= q * Kmin)%N /\ (forall q', (D <= q' * Kmin)%N -> (q <= q')%N).
Proof.
move=> k0 q; split.
  have := divn_eq (D + Kmin - 1) Kmin; have := ltn_pmod (D + Kmin - 1) k0; rewrite -/q; lia.
by move=> q' h; rewrite -ltnS ltn_divLR // mulSn; lia.
Qed.

(** C20: each interval is replaced by what refine_ph makes of it alone, with the degree target computed
    from its own degree and error; intervals within the target error are unchanged. *)
Theorem C20_refine_errors m errs target : (0 < Kmin)%N -> (Kmin <= Kmax)%N -> size errs = size m ->
  exists ps, [/\ refine_errors Kmin Kmax kinc errs target m = Some (flatten ps), size ps = size m &
    forall i, (i < size m)%N ->
      let K := N_colloc_ival m i in
      let e := nth 0 errs i in
      (e <= target -> nth [::] ps i = [:: nth (0%N, 0) m i]) /\
      (target < e -> exists2 m', refine_ph Kmin Kmax i (K + kinc K e target) m = Some m' &
                       m' = take i m ++ nth [::] ps i ++ drop i.+1 m)].
Proof.
move=> k0 km hs; exists [seq piece Kmin Kmax kinc target m ie | ie <- zip (iota 0 (size m)) errs].
split; first exact: refine_errorsE.
  by rewrite size_map size_zip size_iota hs minnn.
move=> i h K e.
have -> : nth [::] [seq piece Kmin Kmax kinc target m ie | ie <- zip (iota 0 (size m)) errs] i =
          piece Kmin Kmax kinc target m (i, e).
  rewrite (nth_map (0%N, 0)); last by rewrite size_zip size_iota hs minnn.
  by rewrite nth_zip ?size_iota ?hs // nth_iota // add0n.
rewrite /piece /=; split; first by rewrite leNgt => /negbTE ->.
by move=> ->; eexists; [exact: refine_phE|].
Qed.

Lemma N_split m i : (i < size m)%N ->
  sumn [seq x.1 | x <- m] = (N_before m i + (N_colloc_ival m i + sumn [seq x.1 | x <- drop i.+1 m]))%N.
Proof.
by move=> h; rewrite -[X in map _ X](cat_take_drop i m) map_cat sumn_cat (drop_nth (0%N, 0)).
Qed.

Section Quadrature.
Hypothesis Hl : forall K, (Kmin <= K <= Kmax.+1)%N -> lgr_contract K (lgr K).

(** C21 *)
Theorem C21_nodes_weights m : (0 < Kmin)%N -> (Kmin <= Kmax)%N -> reach m ->
  let N := sumn [seq x.1 | x <- m] in
  let ts := all_nodes Kmin Kmax lgr m in
  let ws := all_weights Kmin Kmax lgr m in
  [/\ size ts = N.+1, sorted <%R ts, head 0 ts = 0 & last 0 ts = 1] /\
  [/\ size ws = N.+1, forall k, (k < N)%N -> 0 < nth 0 ws k, nth 0 ws N = 0, \sum_(w <- ws) w = 1 &
      forall p : {poly F}, (size p <= (2 * Kmin).-1)%N ->
        \sum_(k < N.+1) nth 0 ws k * p.[nth 0 ts k] = integ p 0 1].
Proof.
move=> k0 km [om [os [c e]]]; have [p r] := run_inv k0 km c e.
have m0 := size_m0 p.
have [s1 s2] := nodes_from_size k0 Hl r m0 (add0n _); rewrite drop0 in s1 s2.
have [a1 a2 a3 a4] := nodes_from_sorted k0 Hl p r m0 (add0n _).
have [ws e1 e2] := weights_from_pos k0 Hl p r m0 (add0n _).
have Q := fun q => @quad_from F Kmin Kmax lgr k0 Hl m p r 0 (size m) q m0 (add0n _).
move=> N ts W; have {}e1 : W = rcons ws 0 by [].
have {}s1 : size ts = N.+1 by [].
have {}s2 : size W = N.+1 by [].
have {}a3 : head 0 ts = tau0 m 0 by [].
have QQ (q : {poly F}) : (size q <= (2 * Kmin).-1)%N ->
  \sum_(k < N.+1) nth 0 W k * q.[nth 0 ts k] = integ q 0 1.
  move=> sq; rewrite -[X in integ q X](tau00 p) -(Q _ sq) (big_nth (0, 0)) size_zip s1 s2 minnn big_mkord.
  by apply: eq_bigr => k _; rewrite nth_zip ?s1 ?s2.
have sw : size ws = N by move: s2; rewrite e1 size_rcons => - [].
split; first by split=> //; rewrite a3 (tau00 p).
split=> //.
- move=> k hk; rewrite e1 nth_rcons sw hk.
  by move/allP: e2; apply; rewrite mem_nth // sw.
- by rewrite e1 nth_rcons sw ltnn eqxx.
- have := QQ 1; rewrite size_poly1 => /(_ _) h.
  rewrite (big_nth 0) s2 big_mkord.
  have <- : integ (1 : {poly F}) 0 1 = 1.
    by rewrite -(@prim_unique _ _ 'X) ?derivX // !hornerX subr0.
  rewrite -h; last by lia.
  by apply: eq_bigr => k _; rewrite hornerC mulr1.
Qed.

(** C22: row vector of the values at the K+1 points of interval i times the differentiation matrix =
    derivatives at the first K points; the sub-matrix without the first row is invertible and the
    integration matrix recovers the values from the derivatives. *)
Theorem C22_diffmat_intmat m i : (0 < Kmin)%N -> (Kmin <= Kmax)%N -> reach m -> (i < size m)%N ->
  let K := N_colloc_ival m i in
  let t := nth 0 (interval_nodes Kmin Kmax lgr m i) in
  row' ord0 (interval_diffmat lgr m i) \in unitmx /\
  forall p : {poly F}, (size p <= K.+1)%N ->
    (\row_(a < K.+1) p.[t a]) *m interval_diffmat lgr m i = \row_(b < K) p^`().[t b] /\
    (\row_(b < K) p^`().[t b]) *m interval_intmat lgr m i = \row_(a < K) (p.[t a.+1] - p.[t 0%N]).
Proof.
move=> k0 km [om [os [c e]]] h K t; have [pm r] := run_inv k0 km c e.
have U := diffmat_unit k0 Hl pm r h; split=> // p sp.
have D (q : {poly F}) : (size q <= K.+1)%N ->
    (\row_(a < K.+1) q.[t a]) *m interval_diffmat lgr m i = \row_(b < K) q^`().[t b].
  move=> sq; apply/rowP => b; rewrite !mxE -(diffmat_exact Hl pm r b h sq).
  by apply: eq_bigr => a _; rewrite mxE.
split; first exact: D.
pose q := p - (p.[t 0%N])%:P.
have sq : (size q <= K.+1)%N.
  by rewrite (leq_trans (size_add _ _)) // geq_max sp size_opp (leq_trans (size_polyC_leq1 _)).
have -> : \row_(b < K) p^`().[t b] = \row_(b < K) q^`().[t b].
  by apply/rowP => b; rewrite !mxE /q derivB derivC subr0.
rewrite -D // /interval_intmat.
set v := \row_(a < K) _.
have -> : (\row_(a < K.+1) q.[t a]) *m interval_diffmat lgr m i = v *m row' ord0 (interval_diffmat lgr m i).
  apply/rowP => b; rewrite !mxE big_ord_recl mxE /q hornerD hornerN hornerC subrr mul0r add0r.
  by apply: eq_bigr => a _; rewrite !mxE hornerD hornerN hornerC.
by rewrite mulmxK.
Qed.

Hypothesis Hb : bis_contract bis.

(** C23: at node k of the mesh, eval returns the k-th value. *)
Theorem C23_eval_nodes (V : lmodType F) m (r : seq V) k : (0 < Kmin)%N -> (Kmin <= Kmax)%N -> reach m ->
  let N := sumn [seq x.1 | x <- m] in
  let t := nth 0 (all_nodes Kmin Kmax lgr m) k in
  (size r = N.+1 -> (k <= N)%N -> eval Kmin Kmax lgr bis m t r 0 true = nth 0 r k) /\
  (size r = N -> (k < N)%N -> eval Kmin Kmax lgr bis m t r 0 false = nth 0 r k).
Proof.
move=> k0 km [om [os [c e]]] N t; have [p rg] := run_inv k0 km c e.
have m0 := size_m0 p.
have [s1 _] := nodes_from_size k0 Hl rg m0 (add0n _); rewrite drop0 -/N in s1.
have bd i : (i < size m)%N -> (N_before m i + N_colloc_ival m i <= N)%N.
  by move=> h; rewrite /N (N_split h) leq_add2l leq_addr.
have core ext : (k <= N)%N -> size r = (if ext then N.+1 else N) -> (ext || (k < N)%N) ->
  eval Kmin Kmax lgr bis m t r 0 ext = nth 0 r k.
  move=> hk sr hx.
  have [|i [j [hi hj ek]]] := @node_index F Kmin Kmax lgr k0 Hl m rg k; first by rewrite s1.
  have last_i : (i.+1 < size m)%N = false -> (N_before m i + N_colloc_ival m i = N)%N.
    by move=> h; rewrite /N (N_split hi) drop_oversize ?addn0 //; lia.
  have bds : (i.+1 < size m)%N -> (N_before m i + (N_colloc_ival m i).+1 <= N)%N.
    move=> h; rewrite /N (N_split hi) (drop_nth (0%N, 0)) //=; have := K_pos k0 rg h.
    by rewrite -/(N_colloc_ival m i.+1); move: (sumn _) (N_colloc_ival m i.+1) (N_colloc_ival m i) (N_before m i); lia.
  rewrite /t ek (nodes_at k0 Hl rg hi hj); apply: eval_node => //.
  - rewrite (size_eval_nodes Hl rg) //; move: hj; rewrite /n_take.
    case: (boolP (i.+1 < size m)%N) => h; first by rewrite orbT; lia.
    rewrite orbF; case: ext hx {sr} => //= hx hj.
    by have := last_i (negbTE h); lia.
  - rewrite (size_eval_nodes Hl rg) // sr.
    case: (boolP (i.+1 < size m)%N) => h; first by have := bds h; rewrite orbT; case: ext {hx sr}; lia.
    have := last_i (negbTE h); rewrite orbF; case: ext {hx sr}; lia.
split=> [sr hk|sr hk]; apply: core => //; exact: ltnW.
Qed.

(** C23 and C24 for an interpolant that is polynomial on every interval.  The data are the samples at the
    nodes of a function x with x(t) = sum_l ps i l (t) * cs i l on interval i (any vector-valued
    polynomial has this form); eval returns the p-th derivative of x times ((tauf - tau0) / 2)^p. *)
Theorem C24_eval_derivative_partial (V : lmodType F) m (r : seq V) n (ps : nat -> nat -> {poly F})
    (cs : nat -> nat -> V) i t p : (0 < Kmin)%N -> (Kmin <= Kmax)%N -> reach m ->
  let N := sumn [seq x.1 | x <- m] in
  let x i t := \sum_(l < n) (ps i l).[t] *: cs i l in
  size r = N.+1 ->
  (forall i l, (i < size m)%N -> (size (ps i l) <= (N_colloc_ival m i).+1)%N) ->
  (forall i j, (i < size m)%N -> (j <= N_colloc_ival m i)%N ->
     nth 0 r (N_before m i + j) = x i (nth 0 (interval_nodes Kmin Kmax lgr m i) j)) ->
  (i < size m)%N -> tau0 m i <= t -> t <= tauf m i -> ((i.+1 < size m)%N -> t != tauf m i) ->
  eval Kmin Kmax lgr bis m t r p true =
  ((tauf m i - tau0 m i) / 2%:R) ^+ p *: \sum_(l < n) ((ps i l)^`(p)).[t] *: cs i l.
Proof.
move=> k0 km [om [os [c e]]] N x sr sp hv hi ta tb tne; have [pm rg] := run_inv k0 km c e.
have ct : contains m i t.
  split=> //; first by apply: le_trans tb _; apply: (tauf_le1 pm hi).
  by move=> h; rewrite lt_neqAle tb tne.
have sz : size (eval_nodes lgr m true i) = (N_colloc_ival m i).+1 by rewrite (size_eval_nodes Hl rg).
rewrite (@eval_poly F Kmin Kmax lgr bis k0 Hl Hb m pm rg V i t r p true n (ps i) (cs i)) //.
- by rewrite scaler_sumr; apply: eq_bigr => l _; rewrite scalerA.
- rewrite sz sr; have : (N_before m i + N_colloc_ival m i <= N)%N; last by lia.
  by rewrite /N (N_split hi) leq_add2l leq_addr.
- by move=> l _; rewrite sz sp.
- move=> j; rewrite sz ltnS => hj; rewrite hv // /x; apply: eq_bigr => l _.
  by rewrite (inodes_nth Hl rg).
Qed.

Corollary C23_eval_polynomial (V : lmodType F) m (r : seq V) n (ps : nat -> nat -> {poly F})
    (cs : nat -> nat -> V) i t : (0 < Kmin)%N -> (Kmin <= Kmax)%N -> reach m ->
  let N := sumn [seq x.1 | x <- m] in
  let x i t := \sum_(l < n) (ps i l).[t] *: cs i l in
  size r = N.+1 ->
  (forall i l, (i < size m)%N -> (size (ps i l) <= (N_colloc_ival m i).+1)%N) ->
  (forall i j, (i < size m)%N -> (j <= N_colloc_ival m i)%N ->
     nth 0 r (N_before m i + j) = x i (nth 0 (interval_nodes Kmin Kmax lgr m i) j)) ->
  (i < size m)%N -> tau0 m i <= t -> t <= tauf m i -> ((i.+1 < size m)%N -> t != tauf m i) ->
  eval Kmin Kmax lgr bis m t r 0 true = x i t.
Proof.
by move=> k0 km rc N x sr sp hv hi ta tb tne; rewrite (C24_eval_derivative_partial 0 k0 km rc sr sp hv hi) // expr0 scale1r.
Qed.

(** C25 *)
Theorem C25_interval_find m t : (0 < Kmin)%N -> (Kmin <= Kmax)%N -> reach m ->
  let f := interval_find bis m t in
  [/\ (f < size m)%N,
      0 <= t < 1 -> tau0 m f <= t < tauf m f /\
        forall j, (j < size m)%N -> tau0 m j <= t < tauf m j -> j = f,
      1 <= t -> f = (size m).-1 &
      t < 0 -> f = 0%N].
Proof.
move=> k0 km [om [os [c e]]] f; have [p rg] := run_inv k0 km c e.
have m0 := size_m0 p.
have lt1 i s : (i < size m)%N -> tau0 m i <= s < tauf m i -> contains m i s.
  move=> h /andP [a b]; split=> //; apply: le_trans (ltW b) _; exact: (tauf_le1 p h).
have in01 : 0 <= t <= 1 -> contains m f t by move=> h; apply: find_contains.
split.
- case: (ltP t 0) => h0; first by rewrite /f /interval_find h0.
  case: (leP t 1) => h1; first by have [] : contains m f t by apply: in01; rewrite h0.
  by rewrite /f /interval_find ltNge h0 h1 /=; lia.
- case/andP=> h0 h1; have cf : contains m f t by apply: in01; rewrite h0 ltW.
  split; last by move=> j hj h; apply: (contains_unique k0 p rg) cf; apply: lt1.
  case: (cf) => hf a _ b; rewrite a /=; case: (boolP (f.+1 < size m)%N) => [/b //|h].
  by rewrite /tauf (negbTE h).
- rewrite /f le_eqVlt => /orP [/eqP <-|h]; last first.
    by rewrite /interval_find ltNge (le_trans ler01 (ltW h)) h.
  apply: (find_eq k0 Hb p rg); first by rewrite ler01 lexx.
  split=> //; first by lia.
    by apply: le_trans (tauf_le1 p (i := (size m).-1) _); [apply/ltW/partition_lt => //; lia|lia].
  by rewrite prednK // ltnn.
- by rewrite /f /interval_find => ->.
Qed.
End Quadrature.

(** C26: N_colloc is the sum modulo uint_mod = 2^32, so it is the sum as long as that fits 32 bits, and the numbers of
    nodes and weights and the offsets used by eval are the partial sums. *)
Theorem C26_N_colloc_partial m :
  let N := (\sum_(i < size m) N_colloc_ival m i)%N in
  [/\ N_colloc m = (N %% uint_mod)%N, (N < uint_mod)%N -> N_colloc m = N &
      forall i, N_before m i = (\sum_(j < size m | (j < i)%N) N_colloc_ival m j)%N].
Proof.
have E : N_colloc m = ((\sum_(i < size m) N_colloc_ival m i) %% uint_mod)%N.
  rewrite /N_colloc; move: uint_mod => M.
  have -> : (\sum_(i < size m) N_colloc_ival m i)%N = sumn [seq x.1 | x <- m].
    by rewrite sumnE big_map (big_nth (0%N, 0)) big_mkord.
  have G acc : foldl (fun a x => (a + x.1) %% M)%N (acc %% M)%N m = ((acc + sumn [seq x.1 | x <- m]) %% M)%N.
    elim: m acc => [|x s IH] acc /=; first by rewrite addn0.
    by rewrite modnDml IH addnA.
  by rewrite -[X in foldl _ X](mod0n M) G add0n.
move: uint_mod E => M E N; split=> //; first by move=> h; rewrite E modn_small.
move=> i; rewrite big_mkcond {N E}.
elim: m i => [|x s IH] i; first by rewrite big_ord0 /N_before; case: i.
rewrite big_ord_recl; case: i => [|i] /=; first by rewrite big1 // => j _; rewrite ltn0.
rewrite /N_before /= -/(N_before s i) IH; congr addn.
Qed.

(** C26 is false for meshes with 2^32 or more points. *)
Theorem C26_N_colloc_refuted : (0 < Kmin)%N -> (Kmin <= Kmax)%N ->
  exists2 m, reach m & N_colloc m <> (\sum_(i < size m) N_colloc_ival m i)%N.
Proof.
move=> k0 km.
have G e : (0 < e)%N -> (1 < 2 ^ e)%N by move=> h; rewrite -{1}(expn0 2) ltn_exp2l.
have [M2 M2E e] : exists2 M, uint_mod = M & (1 < M)%N by exists uint_mod; [reflexivity|exact: (G 32%N)].
pose m := [seq (Kmin, i%:R * (1 / M2%:R : F)) | i <- iota 0 M2].
have sm : size m = M2 by rewrite size_map size_iota.
exists m.
  exists (Some m), [::]; split=> //; right; exists M2, Kmin.
  by rewrite /mesh_new leqnn leqW // ltnNge e.
have S : (\sum_(i < size m) N_colloc_ival m i = M2 * Kmin)%N.
  have H (i : 'I_(size m)) : true -> N_colloc_ival m i = Kmin.
    by move=> _; rewrite /N_colloc_ival (nth_map 0%N) // size_iota -sm.
  by rewrite (eq_bigr _ H) sum_nat_const card_ord sm.
have [-> _ _] := C26_N_colloc_partial m; rewrite S M2E modnMr => /esym /eqP.
by rewrite muln_eq0 -!leqn0 leqNgt ltnW //= leqNgt k0.
Qed.
End Props.

(** * Concrete cases: Kmin = Kmax = 1 over the rationals. *)
Notation Q_ := [realFieldType of rat].
Definition ex_lgr (K : nat) : seq rat * seq rat :=
  if K == 1%N then ([:: -1], [:: 2%:Q])
  else ([:: -1; 1 / 3%:Q], [:: 1 / 2%:Q; 3%:Q / 2%:Q]).
Definition ex_bis (s : seq rat) (t : rat) : option nat :=
  if has (fun x => x <= t) s then Some (count (fun x => x <= t) s).-1 else None.
Definition ex_kinc (K : nat) (e t : rat) : nat := 1.
(** Mesh<1,1>(2, 1), then refine_ph(0, 2): [0,1/4), [1/4,1/2), [1/2,1). *)
Definition ex_m : seq (nat * rat) := [:: (1%N, 0); (1%N, 1 / 4%:Q); (1%N, 1 / 2%:Q)].
(** The same with degree 2 in the last interval. *)
Definition ex_m2 : seq (nat * rat) := [:: (1%N, 0); (1%N, 1 / 4%:Q); (2%N, 1 / 2%:Q)].

Lemma ex_integ (p : {poly rat}) a b : (size p <= 3)%N ->
  integ p a b = p`_0 * (b - a) + p`_1 / 2%:Q * (b ^+ 2 - a ^+ 2) + p`_2 / 3%:Q * (b ^+ 3 - a ^+ 3).
Proof.
move=> sp; pose q : {poly rat} := p`_0 *: 'X + (p`_1 / 2%:Q) *: 'X^2 + (p`_2 / 3%:Q) *: 'X^3.
rewrite -(@prim_unique _ _ q); last first.
  rewrite /q !derivD !derivZ derivX !derivXn /=; apply/polyP => i.
  rewrite !coefD !coefZ !coefMn coefX coefXn coef1 /=.
  case: i => [|[|[|i]]]; rewrite ?mulr0 ?mulr1 ?addr0 ?add0r ?mul0rn ?mulr0 ?addr0 ?add0r //.
  - by rewrite mulfVK.
  - by rewrite mulfVK.
  - by rewrite nth_default // (leq_trans sp).
rewrite /q !hornerD !hornerZ !hornerX !hornerXn; move: (p`_0) (p`_1 / 2%:Q) (p`_2 / 3%:Q) => x y z; ring.
Qed.

Example ex_lgr_contract K : (1 <= K <= 2)%N -> lgr_contract K (ex_lgr K).
Proof.
case: K => [|[|[|K]]] // _.
- split=> // p sp; rewrite ex_integ; last by apply: leq_trans sp _.
  have [c ->] : exists c, p = c%:P by exists p`_0; apply: size1_polyC.
  by rewrite /= big_seq1 /= hornerC !coefC /=; field.
- split=> // p sp; rewrite ex_integ // /= !big_cons big_nil /=.
  have E x : p.[x] = p`_0 + p`_1 * x + p`_2 * x ^+ 2.
    rewrite (horner_coef_wide x sp) !big_ord_recl big_ord0 /= expr0 mulr1 addr0 addrA expr1.
    by rewrite /bump /=.
  by rewrite !E; move: (p`_0) (p`_1) (p`_2) => x y z; field.
Qed.

Example ex_bis_contract : bis_contract (F := Q_) ex_bis.
Proof.
move=> s t ss ne h; rewrite /ex_bis; exists (count (fun x : rat => x <= t) s).-1.
have hs : has (fun x : rat => x <= t) s by case: s ne h {ss} => //= x s _ ->.
have c0 : (0 < count (fun x : rat => (x <= t)%R) s)%N by rewrite -has_count.
have P i : (i < size s)%N -> (nth 0 s i <= t) = (i < count (fun x : rat => (x <= t)%R) s)%N.
  elim: s ss {ne h hs c0} i => [//|x s IH] ss i hi /=.
  have ss' : sorted <%R s := path_sorted ss.
  have al : all (fun y : rat => x < y) s by move: ss; rewrite /= lt_path_sortedE => /andP [].
  case: (boolP (x <= t)) => xt; case: i hi => [|i] hi //=; first by rewrite IH.
    have -> : count (fun y : rat => y <= t) s = 0%N; last by rewrite addn0 (negbTE xt).
    apply/eqP; rewrite -leqn0 leqNgt -has_count; apply/negP => /hasP [y ys yt].
    by case/negP: xt; apply: le_trans yt; apply: ltW; move/allP: al; apply.
  have -> : count (fun y : rat => y <= t) s = 0%N.
    apply/eqP; rewrite -leqn0 leqNgt -has_count; apply/negP => /hasP [y ys yt].
    by case/negP: xt; apply: le_trans yt; apply: ltW; move/allP: al; apply.
  rewrite addn0; apply/negbTE; apply: contra xt => yt; apply: le_trans yt; apply: ltW.
  by move/allP: al; apply; rewrite mem_nth.
have cs := count_size (fun x : rat => x <= t) s.
have h1 : ((count (fun x : rat => (x <= t)%R) s).-1 < size s)%N by rewrite prednK.
split=> //; first by rewrite hs.
  by rewrite P // prednK.
by move=> h2; rewrite ltNge P // prednK // ltnn.
Qed.

Example ex_reach : reachable (F := Q_) 1 1 ex_kinc ex_m.
Proof.
exists (mesh_new Q_ 1 1 2 1), [:: MRefine _ 0 2]; split; first by right; exists 2%N, 1%N.
by rewrite /mesh_run /= /refine_ph /=; congr Some; do 3 (congr cons; first by congr pair; apply/eqP).
Qed.
Example ex_reach2 : reachable (F := Q_) 1 1 ex_kinc ex_m2.
Proof.
exists (mesh_new Q_ 1 1 2 1), [:: MRefine _ 0 2; MSet _ 2 2]; split; first by right; exists 2%N, 1%N.
by rewrite /mesh_run /= /refine_ph /=; congr Some; do 3 (congr cons; first by congr pair; apply/eqP).
Qed.

(** C19: documented are n intervals, each of degree Kmin; the first one keeps degree 2. *)
Theorem C19_refine_ph_refuted :
  exists (m : seq (nat * Q_)) i D m', [/\ reachable 1 1 ex_kinc m, (i < size m)%N, (1 < D)%N,
    refine_ph 1 1 i D m = Some m' & N_colloc_ival m' i <> 1%N].
Proof.
exists [:: (2%N, 0)], 0%N, 2%N, (split_loop 1 0 0 ((1 - 0) / 2%:R) 2 [:: (2%N, 0)]); split=> //.
by exists (mesh_new Q_ 1 1 1 2), [::]; split=> //; right; exists 1%N, 2%N.
Qed.

(** C24: the data of x(t) = t on the mesh [0,1] with one point per interval; dx/dt = 1 but eval returns 1/2. *)
Theorem C24_eval_derivative_refuted :
  exists (m : seq (nat * Q_)) (r : seq Q_^o) t, [/\ reachable 1 1 ex_kinc m,
    r = [seq x | x <- all_nodes 1 1 ex_lgr m], 0 <= t < 1 &
    eval 1 1 ex_lgr ex_bis m t r 1 true <> 1].
Proof.
pose m : seq (nat * Q_) := [:: (1%N, 0)].
have rm : reachable 1 1 ex_kinc m.
  by exists (Some (mesh_default Q_ 1)), [::]; split=> //; left.
exists m, [seq x | x <- all_nodes 1 1 ex_lgr m], 0; split=> //.
have E : [seq (x : Q_^o) | x <- all_nodes 1 1 ex_lgr m] = [:: 0; 1 : Q_^o].
  rewrite /all_nodes /= /n_take /= /interval_nodes /half_len /tauf /tau0 /=.
  by congr [:: _; _]; apply/eqP.
rewrite E (@C24_eval_derivative_partial Q_ 1 1 ex_lgr ex_bis ex_kinc ex_lgr_contract ex_bis_contract
  _ m [:: 0; 1 : Q_^o] 1 (fun _ _ => 'X) (fun _ _ => 1) 0 0 1) //.
- by rewrite big_ord1 derivn1 derivX hornerC scale1r.
- by case=> // l _; rewrite size_polyX.
- case=> // [[|[|j]]] // _ _; rewrite big_ord1 hornerX /=; by apply/eqP.
Qed.

(** C21-C23, C25 on ex_m2. *)
Example ex_C21 : all_nodes 1 1 ex_lgr ex_m2 = [:: 0; 1 / 4%:Q; 1 / 2%:Q; 5%:Q / 6%:Q; 1] /\
  all_weights 1 1 ex_lgr ex_m2 = [:: 1 / 4%:Q; 1 / 4%:Q; 1 / 8%:Q; 3%:Q / 8%:Q; 0].
Proof. by split; apply/eqP. Qed.
Example ex_C25 : [/\ interval_find ex_bis ex_m2 (1 / 4%:Q) = 1%N, interval_find ex_bis ex_m2 (1 / 5%:Q) = 0%N &
  interval_find ex_bis ex_m2 1 = 2%N].
Proof. by []. Qed.
Definition ex_r : seq Q_^o := [:: 1; 2%:Q; 3%:Q; 4%:Q; 5%:Q].
Example ex_C23 : eval 1 1 ex_lgr ex_bis ex_m2 (5%:Q / 6%:Q) ex_r 0 true = 4%:Q.
Proof.
have [+ _] := @C23_eval_nodes Q_ 1 1 ex_lgr ex_bis ex_kinc ex_lgr_contract ex_bis_contract _ ex_m2
  ex_r 3 isT isT ex_reach2.
by rewrite (proj1 ex_C21) => ->.
Qed.
(** C20: errors 3, 0, 3 with target 1 refine the first and the last interval only. *)
Example ex_C20 : refine_errors 1 1 ex_kinc [:: 3%:Q; 0; 3%:Q] 1 ex_m =
  Some [:: (1%N, 0); (1%N, 1 / 8%:Q); (1%N, 1 / 4%:Q); (1%N, 1 / 2%:Q); (1%N, 3%:Q / 4%:Q)].
Proof. by apply/eqP. Qed.
Example ex_C26 : N_colloc ex_m2 = 4%N.
Proof.
have S : (\sum_(i < size ex_m2) N_colloc_ival ex_m2 i = 4)%N by rewrite !big_ord_recl big_ord0.
have h : (2 ^ 3 <= uint_mod)%N by rewrite leq_exp2l.
have [_ E _] := C26_N_colloc_partial ex_m2; rewrite S in E; apply: E.
by move: uint_mod h => M; apply: leq_trans.
Qed.

Print Assumptions C17_mesh_is_partition.
Print Assumptions C18_mesh_degrees.
Print Assumptions C19_refine_ph_partial.
Print Assumptions C19_refine_ph_refuted.
Print Assumptions C20_refine_errors.
Print Assumptions C21_nodes_weights.
Print Assumptions C22_diffmat_intmat.
Print Assumptions C23_eval_nodes.
Print Assumptions C23_eval_polynomial.
Print Assumptions C24_eval_derivative_partial.
Print Assumptions C24_eval_derivative_refuted.
Print Assumptions C25_interval_find.
Print Assumptions C26_N_colloc_partial.
Print Assumptions C26_N_colloc_refuted.
