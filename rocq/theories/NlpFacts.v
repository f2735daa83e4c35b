(** Facts about the nonlinear program: index classes, dependence of the mesh functions on their ranges. *)
From mathcomp Require Import all_ssreflect all_algebra zify.
From mathcomp.algebra_tactics Require Import ring.
From Verif Require Import Calc QpModel QpSpec MeshModel MeshSpec MeshFacts MeshQuad MeshEval MeshProps.
From Verif Require Import SparseModel SparseFacts MeshFunModel MeshFunFacts MeshFunLoops MeshFunDyn MeshFunProps NlpModel.
Set Implicit Arguments.
Unset Strict Implicit.
Unset Printing Implicit Defensive.
Import Order.TTheory GRing.Theory Num.Theory.
Local Open Scope ring_scope.
Local Arguments muln : simpl never.

Section Ext.
Variable F : realFieldType.
Variables nx nu nf : nat.
Local Notation nz := (1 + nx + nu)%N.
Variables (fv : 'cV[F]_nz -> nat -> F) (df d2f : 'cV[F]_nz -> smat F).
(** Results that differ at most in the representation of the value. *)
Definition mrel (a b : mval F) : Prop :=
  [/\ mvalloc a = mvalloc b, mvF a =1 mvF b, mvdF a = mvdF b, mvd2F a = mvd2F b & mvlam a = mvlam b].
Lemma mrel_refl a : mrel a a. Proof. by []. Qed.
Variables (N : nat) (taus ws : seq F) (t0 tf t0' tf' : F) (xs us xs' us' : nat -> nat -> F).
Hypotheses (e0 : t0 = t0') (ef : tf = tf').
Hypothesis ex : forall i k, (i <= N)%N -> (k < nx)%N -> xs i k = xs' i k.
Hypothesis eu : forall i k, (i < N)%N -> (k < nu)%N -> us i k = us' i k.
Lemma zarg_ext tau i : (i < N)%N -> @zarg F nx nu t0 tf xs us tau i = zarg nx nu t0' tf' xs' us' tau i.
Proof.
move=> hi; apply/matrixP => a b; rewrite !mxE -e0 -ef; case: ifP => // a0; case: ifP => h.
  by apply: ex; lia.
by apply: eu => //; have := ltn_ord a; lia.
Qed.
Lemma foldl_mrel (st st' : mval F -> nat -> mval F) (s : seq nat) a b :
  (forall a b i, i \in s -> mrel a b -> mrel (st a i) (st' b i)) -> mrel a b -> mrel (foldl st a s) (foldl st' b s).
Proof.
elim: s a b => //= i s IH a b h ab; apply: IH; last by apply: h => //; rewrite inE eqxx.
by move=> x y j js; apply: h; rewrite inE js orbT.
Qed.
Lemma eval_ext scale out : mrel (eval_loop nf fv df d2f N taus ws t0 tf xs us scale out)
  (eval_loop nf fv df d2f N taus ws t0' tf' xs' us' scale out).
Proof.
apply: foldl_mrel => // a b i; rewrite mem_iota add0n => hi [h1 h2 h3 h4 h5].
rewrite /eval_step zarg_ext //; split=> //=; last 2 first.
- by rewrite h3.
- by rewrite h4 h5.
by move=> r; rewrite /seg_set h2.
Qed.
Lemma int_ext out : mrel (int_loop nf fv df d2f N taus ws t0 tf xs us out)
  (int_loop nf fv df d2f N taus ws t0' tf' xs' us' out).
Proof.
apply: foldl_mrel => // a b i; rewrite mem_iota add0n => hi [h1 h2 h3 h4 h5].
rewrite /int_step zarg_ext // -?e0 -?ef; split=> //=; last 2 first.
- by rewrite h3.
- by rewrite h4 h5.
by move=> r; rewrite /seg_add h2.
Qed.
Variables (nI : nat) (Ks : nat -> nat) (iw : nat -> seq F) (alpha : nat -> F) (Dus : nat -> nat -> nat -> F).
Lemma dyn_add_ext I i0 Ni i a b : (i <= N)%N -> mrel a b ->
  mrel (dyn_add nx xs iw alpha Dus I i0 Ni i a) (dyn_add nx xs' iw alpha Dus I i0 Ni i b).
Proof.
move=> hi ab; apply: foldl_mrel ab => x y j _ [h1 h2 h3 h4 h5]; split=> //=; last by rewrite h3.
by move=> r; rewrite /seg_add h2; case: ifP => // hr; rewrite ex //; lia.
Qed.
Lemma dyn_ext out : mrel (dyn_loop fv df d2f N taus ws t0 tf xs us nI Ks iw alpha Dus out)
  (dyn_loop fv df d2f N taus ws t0' tf' xs' us' nI Ks iw alpha Dus out).
Proof.
rewrite /dyn_loop.
have : mrel (foldl (dyn_step fv df d2f N taus ws t0 tf xs us) (mprep out) (iota 0 N))
  (foldl (dyn_step fv df d2f N taus ws t0' tf' xs' us') (mprep out) (iota 0 N)).
  apply: foldl_mrel => // a b i; rewrite mem_iota add0n => hi [h1 h2 h3 h4 h5].
  rewrite /dyn_step zarg_ext // -?e0 -?ef; split=> //=; last 2 first.
  - by rewrite h3.
  - by rewrite h4 h5.
  by move=> r; rewrite /seg_add h2.
have G s p q r a b : (forall i, i \in s -> (i <= N)%N) -> mrel a b ->
  mrel (foldl (dyn_step2 nx N xs nI Ks iw alpha Dus) (p, q, r, a) s).2
       (foldl (dyn_step2 nx N xs' nI Ks iw alpha Dus) (p, q, r, b) s).2.
  elim: s p q r a b => [|i s IH] p q r a b hs ab //=.
  have hi : (i <= N)%N by apply: hs; rewrite inE eqxx.
  have hs' j : j \in s -> (j <= N)%N by move=> js; apply: hs; rewrite inE js orbT.
  by case: ifP => c1; [case: ifP => c2|]; case: ifP => c3; apply: IH => //; repeat apply: dyn_add_ext.
by apply: G => i; rewrite mem_iota; lia.
Qed.
End Ext.

(** Classes of variables: tf, q, x (first, middle and last node) and u. *)
Section Cols.
Variables Nx Nq xL uL : nat.
Hypothesis hL : (Nx + Nx <= xL)%N.
Local Notation xB := (1 + Nq)%N.
Local Notation xfB := (1 + Nq + xL - Nx)%N.
Local Notation uB := (1 + Nq + xL)%N.
(** Index among the variables of the mesh functions, and among (tf, x0, xf, q). *)
Definition vi (c : nat) : nat := if c == 0%N then 1%N else (2 + (c - xB))%N.
Definition ec (c : nat) : bool := [|| c == 0%N, inr 1 Nq c, inr xB Nx c | inr xfB Nx c].
Definition ea (c : nat) : nat :=
  if c == 0%N then 0%N else if inr 1 Nq c then (1 + 2 * Nx + (c - 1))%N
  else if inr xB Nx c then (1 + (c - xB))%N else (1 + Nx + (c - xfB))%N.
Variant colc (c : nat) : bool -> bool -> bool -> bool -> bool -> bool -> bool -> nat -> nat -> Prop :=
| ColT of c = 0%N : colc c true false false false false false true 0%N 1%N
| ColQ of (1 <= c < 1 + Nq)%N : colc c false true false false false false true (1 + 2 * Nx + (c - 1))%N (2 + (c - xB))%N
| ColX0 of (xB <= c < xB + Nx)%N : colc c false false true false true false true (1 + (c - xB))%N (2 + (c - xB))%N
| ColXf of (xfB <= c < uB)%N : colc c false false true false false true true (1 + Nx + (c - xfB))%N (2 + (c - xB))%N
| ColXm e of (xB + Nx <= c < xfB)%N : colc c false false true false false false false e (2 + (c - xB))%N
| ColU e of (uB <= c < uB + uL)%N : colc c false false false true false false false e (2 + (c - xB))%N.
Lemma colP c : (c < uB + uL)%N ->
  colc c (inr 0 1 c) (inr 1 Nq c) (inr xB xL c) (inr uB uL c) (inr xB Nx c) (inr xfB Nx c) (ec c) (ea c) (vi c).
Proof.
move=> hc.
have e1 : inr 0 1 c = (c == 0)%N by rewrite /inr; lia.
rewrite /ec /ea /vi e1; case: eqP => [c0|c0].
  rewrite (_ : inr 1 Nq c = false) 1?(_ : inr xB xL c = false) 1?(_ : inr uB uL c = false)
    1?(_ : inr xB Nx c = false) 1?(_ : inr xfB Nx c = false); try (by rewrite /inr; lia).
  exact: ColT.
case hq : (inr 1 Nq c).
  have -> : inr xB xL c = false by move: hq; rewrite /inr; lia.
  have -> : inr uB uL c = false by move: hq; rewrite /inr; lia.
  have -> : inr xB Nx c = false by move: hq; rewrite /inr; lia.
  have -> : inr xfB Nx c = false by move: hq; rewrite /inr; lia.
  exact: ColQ.
case hx : (inr xB xL c); last first.
  have -> : inr uB uL c = true by move: hq hx; rewrite /inr; lia.
  have -> : inr xB Nx c = false by move: hq hx; rewrite /inr; lia.
  have -> : inr xfB Nx c = false by move: hq hx; rewrite /inr; lia.
  by apply: ColU; move: hq hx; rewrite /inr; lia.
have -> : inr uB uL c = false by move: hx; rewrite /inr; lia.
case h0 : (inr xB Nx c).
  have -> : inr xfB Nx c = false by move: h0; rewrite /inr; lia.
  exact: ColX0.
case hf : (inr xfB Nx c).
  by apply: ColXf; move: hf; rewrite /inr; lia.
by apply: ColXm; move: hq hx h0 hf; rewrite /inr; lia.
Qed.
(** The entries that upper-only addition drops: row in q and column in x0 or xf. *)
Definition mixed (r c : nat) : bool := inr 1 Nq r && (inr xB Nx c || inr xfB Nx c).
End Cols.

Section Sums.
Variable F : realFieldType.
Variables Nx Nq xL uL : nat.
Hypothesis hL : (Nx + Nx <= xL)%N.
Local Notation xB := (1 + Nq)%N.
Local Notation xfB := (1 + Nq + xL - Nx)%N.
Local Notation uB := (1 + Nq + xL)%N.
Local Notation n := (uB + uL)%N.
Ltac bsum := rewrite !big_cons big_nil !contribB !addr0.
Lemma grad_sum (D : smat F) r0 nr r c : (c < n)%N ->
  \sum_(o <- [:: Bop r0 0 (block D 0 0 nr 1) 1 false;
        Bop r0 xB (block D 0 1 nr Nx) 1 false;
        Bop r0 xfB (block D 0 (1 + Nx) nr Nx) 1 false;
        Bop r0 1 (block D 0 (1 + 2 * Nx) nr Nq) 1 false]) contrib o r c =
  if inr r0 nr r && ec Nx Nq xL c then val D (r - r0) (ea Nx Nq xL c) else 0.
Proof.
move=> hc; bsum; rewrite !add0n !mul1r.
by case: (inr r0 nr r); case: (colP hL hc) => [->|h|h|h|e h|e h] //=; rewrite ?add0r ?addr0 ?subnn.
Qed.
Lemma jac_sum (D : smat F) (w : F) r0 nr r c : (c < n)%N ->
  \sum_(o <- [:: Bop r0 0 (block D 0 1 nr 1) w false;
      Bop r0 xB (block D 0 2 nr xL) w false;
      Bop r0 uB (block D 0 (2 + xL) nr uL) w false]) contrib o r c =
  if inr r0 nr r && ~~ inr 1 Nq c then w * val D (r - r0) (vi Nq c) else 0.
Proof.
move=> hc; bsum; rewrite !add0n.
case: (inr r0 nr r); case: (colP hL hc) => [->|h|h|h|e h|e h] //=; rewrite ?add0r ?addr0 ?subnn //.
by congr (_ * val D _ _); lia.
Qed.
Lemma end_sum (D : smat F) b0 k r c : (r < n)%N -> (c < n)%N ->
  \sum_(o <- [:: Bop 0 0 (block D 0 (b0 + 0) 1 1) k true;
      Bop 0 xB (block D 0 (b0 + 1) 1 Nx) k true;
      Bop 0 xfB (block D 0 (b0 + (1 + Nx)) 1 Nx) k true;
      Bop 0 1 (block D 0 (b0 + (1 + 2 * Nx)) 1 Nq) k true;
      Bop xB xB (block D 1 (b0 + 1) Nx Nx) k true;
      Bop xB xfB (block D 1 (b0 + (1 + Nx)) Nx Nx) k true;
      Bop xB 1 (block D 1 (b0 + (1 + 2 * Nx)) Nx Nq) k true;
      Bop xfB xfB (block D (1 + Nx) (b0 + (1 + Nx)) Nx Nx) k true;
      Bop xfB 1 (block D (1 + Nx) (b0 + (1 + 2 * Nx)) Nx Nq) k true;
      Bop 1 1 (block D (1 + 2 * Nx) (b0 + (1 + 2 * Nx)) Nq Nq) k true]) contrib o r c =
  if [&& (r <= c)%N, ec Nx Nq xL r, ec Nx Nq xL c & ~~ mixed Nx Nq xL r c]
  then k * val D (ea Nx Nq xL r) (b0 + ea Nx Nq xL c) else 0.
Proof.
move=> hr hc; bsum; rewrite /mixed ![~~ true]/= ![false || _]/=.
case: (leqP r c) => rc; last by rewrite !andbF !addr0.
rewrite !andbT; case: (colP hL hr) => [er|er|er|er|e er|e er]; case: (colP hL hc) => [ec|ec|ec|ec|e' ec|e' ec] //=;
  try (exfalso; lia); rewrite ?er ?ec ?add0n ?sub0n ?subnn ?addn0 -?addnA ?addr0 ?add0r //.
Qed.
Lemma three_sum (D1 D2 D3 : smat F) (w : F) r c : (r < n)%N -> (c < n)%N ->
  let three r c br bc n k := [:: Bop r c (block D1 br bc n k) w true; Bop r c (block D2 br bc n k) w true;
                                 Bop r c (block D3 br bc n k) w true] in
  \sum_(o <- (three 0 0 1 1 1 1 ++ three 0 xB 1 2 1 xL ++ three 0 uB 1 (2 + xL) 1 uL ++
     three xB xB 2 2 xL xL ++ three xB uB 2 (2 + xL) xL uL ++
     three uB uB (2 + xL) (2 + xL) uL uL)%N) contrib o r c =
  if [&& (r <= c)%N, ~~ inr 1 Nq r & ~~ inr 1 Nq c] then
    w * val D1 (vi Nq r) (vi Nq c) + (w * val D2 (vi Nq r) (vi Nq c) + w * val D3 (vi Nq r) (vi Nq c)) else 0.
Proof.
move=> hr hc three; rewrite /three !cat_cons !cat0s; bsum; rewrite ![~~ true]/= ![false || _]/=.
case: (leqP r c) => rc; last by rewrite !andbF !addr0.
have E a : (uB <= a)%N -> (2 + xL + (a - uB))%N = (2 + (a - xB))%N by lia.
rewrite !andbT; case: (colP hL hr) => [er|er|er|er|e er|e er]; case: (colP hL hc) => [ec|ec|ec|ec|e' ec|e' ec] //=;
  try (exfalso; lia); rewrite ?er ?ec ?add0n ?sub0n ?subnn ?addn0 ?addr0 ?add0r //; rewrite ?E //; case/andP: ec => //;
  case/andP: er => //.
Qed.
End Sums.

Section VarMap.
Variable F : realFieldType.
Variables Nx Nu Nq Ncr Nce : nat.
Local Notation ne := (1 + 2 * Nx + Nq)%N.
Variable m : mesh F.
Local Notation N := (N_colloc m).
Local Notation xL := (Nx * (N + 1))%N.
Local Notation uL := (Nu * N)%N.
Local Notation n := (1 + Nq + xL + uL)%N.
Hypothesis N0 : (0 < N)%N.
(** The variables of the mesh functions in terms of the variables of the nonlinear program. *)
Definition V (x : nat -> F) (k : nat) : F := match k with 0 => 0 | 1 => x 0%N | k'.+2 => x (1 + Nq + k')%N end.
Lemma hL : (Nx + Nx <= xL)%N. Proof. by rewrite mulnDr muln1 leq_add2r leq_pmulr. Qed.
Lemma V_set x c s k : ~~ inr 1 Nq c -> V (setn x c s) k = setn (V x) (vi Nq c) s k.
Proof.
rewrite /inr /vi /setn => hc; case: k => [|[|k]] /=; first by case: (c == 0)%N.
  by rewrite eq_sym; case: (c == 0)%N.
by congr (if _ then _ else _); case: ifP hc; lia.
Qed.
Lemma V_setq x c s k : inr 1 Nq c -> V (setn x c s) k = V x k.
Proof.
rewrite /inr /setn => hc; case: k => [|[|k]] //=; first by case: eqP hc => // <-.
by case: eqP hc => // <-; lia.
Qed.
Lemma V_vi x c : ~~ inr 1 Nq c -> V x (vi Nq c) = x c.
Proof. by rewrite /inr /vi; case: eqP => [->//|c0] h /=; congr x; lia. Qed.
Definition nat_ext (Phi : (nat -> F) -> F) : Prop := forall v w, v =1 w -> Phi v = Phi w.
Lemma partial_V Phi x c d : nat_ext Phi -> (~~ inr 1 Nq c -> partialn Phi (V x) (vi Nq c) d) ->
  partialn (fun x => Phi (V x)) x c (if inr 1 Nq c then 0 else d).
Proof.
move=> E h; rewrite /partialn; case hq : (inr 1 Nq c).
  by apply: deriv_ext (deriv_const (Phi (V x)) _) => s; apply: E => k; rewrite V_setq.
rewrite hq in h; have := h isT; rewrite /partialn V_vi ?hq //; apply: deriv_ext => s; apply: E => k.
by rewrite V_set ?hq.
Qed.
Lemma vi_le a b : ~~ inr 1 Nq a -> ~~ inr 1 Nq b -> (a <= b)%N -> (vi Nq a <= vi Nq b)%N.
Proof. by rewrite /inr /vi; case: eqP => h0; case: eqP => // h1 h2 h3; lia. Qed.
Lemma hess_V Phi x a b (h : nat -> F) : nat_ext Phi -> (a <= b)%N ->
  (forall b', (vi Nq a <= b')%N -> hessn Phi (V x) (vi Nq a) b' (h b')) ->
  hessn (fun x => Phi (V x)) x a b (if inr 1 Nq a || inr 1 Nq b then 0 else h (vi Nq b)).
Proof.
move=> E ab H; case ha : (inr 1 Nq a) => /=.
  exists (fun=> 0); last exact: deriv_const.
  by move=> w; have := @partial_V Phi w a 0 E; rewrite ha; apply.
have [D HD Hb] : exists2 D : (nat -> F) -> F, forall w, partialn Phi w (vi Nq a) (D w) &
   (~~ inr 1 Nq b -> partialn D (V x) (vi Nq b) (h (vi Nq b))).
  case hb : (inr 1 Nq b).
    by have [D HD _] := H _ (leqnn _); exists D.
  by have [|D HD Hb] := H (vi Nq b); [apply: vi_le; rewrite ?ha ?hb|exists D].
have ED : nat_ext D.
  move=> v w vw; apply: deriv_uniq (HD v) _; have := HD w; rewrite /partialn vw; apply: deriv_ext => s.
  by apply: E => k; rewrite /setn vw.
exists (fun w => D (V w)) => [w|]; last exact: partial_V.
by have := @partial_V Phi w a (D (V w)) E; rewrite ha; apply.
Qed.

(** The argument (tf, x0, xf, q) of the end point functions. *)
Local Notation ecl := (ec Nx Nq xL).
Local Notation eal := (ea Nx Nq xL).
Local Notation zend := (zend Nx Nu Nq m).
Lemma ea_lt c : (c < n)%N -> ecl c -> (eal c < ne)%N.
Proof. by move=> hc; case: (colP hL hc) => // *; lia. Qed.
Definition eo c (hc : (c < n)%N) (h : ecl c) : 'I_ne := Ordinal (ea_lt hc h).
Lemma ea_inj a c : (a < n)%N -> (c < n)%N -> ecl a -> ecl c -> eal a = eal c -> a = c.
Proof.
move=> ha hc; case: (colP hL ha) => // h1 _; case: (colP hL hc) => // h2 _; have := hL; lia.
Qed.
(** Inverse of eal. *)
Definition ev (a : nat) : nat := if a == 0%N then 0%N else if (a < 1 + Nx)%N then (1 + Nq + (a - 1))%N
  else if (a < 1 + 2 * Nx)%N then (1 + Nq + xL - Nx + (a - (1 + Nx)))%N else (1 + (a - (1 + 2 * Nx)))%N.
Lemma zend_ev x (a : 'I_ne) : zend x a 0 = x (ev a).
Proof. by rewrite mxE /ev; case: ifP => // _; case: ifP => // _; case: ifP. Qed.
Lemma ev_lt a : (a < ne)%N -> (ev a < n)%N.
Proof. by rewrite /ev; have := hL; case: eqP => // a0; case: ifP => h1; [|case: ifP => h2]; lia. Qed.
Lemma ev_ec a : (a < ne)%N -> ecl (ev a).
Proof.
move=> h; have := hL; rewrite /ev; case: (eqVneq a 0%N) => [_|a0] hL; first by [].
by rewrite /ec /inr; case: ifP => h1; [|case: ifP => h2]; apply/orP; right; lia.
Qed.
Lemma ev_ea a : (a < ne)%N -> eal (ev a) = a.
Proof.
move=> h; have := ev_ec h; have := hL; case: (colP hL (ev_lt h)) => //; rewrite /ev; case: (eqVneq a 0%N) => [-> //|a0] + hL _;
  try (by move=> e; lia); by case: ifP => h1; [|case: ifP => h2]; lia.
Qed.
Lemma zend_set x c s (hc : (c < n)%N) (h : ecl c) : zend (setn x c s) = setc (zend x) (eo hc h) s.
Proof.
apply/matrixP => a b; rewrite (ord1 b) [RHS]mxE !zend_ev /setn -val_eqE /=.
congr (if _ then _ else _); apply/eqP/eqP => [<-|e]; first by rewrite ev_ea.
by apply: ea_inj => //; rewrite ?ev_lt ?ev_ec ?ev_ea.
Qed.
Lemma zend_set0 x c s : (c < n)%N -> ~~ ecl c -> zend (setn x c s) = zend x.
Proof.
move=> hc h; apply/matrixP => a b; rewrite (ord1 b) !zend_ev /setn; case: eqP => // e.
by move: h; rewrite -e ev_ec.
Qed.
Lemma zend_id x c (hc : (c < n)%N) (h : ecl c) : zend x (eo hc h) 0 = x c.
Proof. by rewrite zend_ev /=; congr x; apply: ea_inj => //; rewrite ?ev_lt ?ev_ec ?ev_ea ?ea_lt. Qed.
Lemma partial_end (phi : 'cV[F]_ne -> F) x c (J : nat -> F) : (c < n)%N ->
  (forall a : 'I_ne, partial phi (zend x) a (J a)) ->
  partialn (fun x => phi (zend x)) x c (if ecl c then J (eal c) else 0).
Proof.
move=> hc H; rewrite /partialn; case h : (ecl c); last first.
  by apply: deriv_ext (deriv_const (phi (zend x)) _) => s; rewrite zend_set0 ?h.
by have := H (eo hc h); rewrite /partial zend_id; apply: deriv_ext => s; rewrite zend_set.
Qed.
Lemma hess_end (phi : 'cV[F]_ne -> F) x a b (d1 : 'cV[F]_ne -> nat -> F) (d2 : nat -> nat -> F) : (a < n)%N -> (b < n)%N ->
  (forall z (i : 'I_ne), partial phi z i (d1 z i)) ->
  (forall (i j : 'I_ne), partial (fun z => d1 z i) (zend x) j (d2 i j)) ->
  hessn (fun x => phi (zend x)) x a b (if ecl a && ecl b then d2 (eal a) (eal b) else 0).
Proof.
move=> ha hb H1 H2; exists (fun w => if ecl a then d1 (zend w) (eal a) else 0) => [w|].
  exact: partial_end.
case h : (ecl a) => /=; last exact: deriv_const.
by apply: (partial_end (phi := fun z => d1 z (eal a)) (J := d2 (eal a))) => // i; exact: (H2 (eo ha h)).
Qed.
End VarMap.
