(** C19: the number of intervals after refine_ph, stated without the formula of the code. *)
From mathcomp Require Import all_ssreflect all_algebra zify.
From mathcomp.algebra_tactics Require Import ring.
From Verif Require Import MeshModel MeshSpec PolyFacts MeshFacts MeshQuad MeshEval MeshProps.
Set Implicit Arguments.
Unset Strict Implicit.
Unset Printing Implicit Defensive.
Import Order.TTheory GRing.Theory Num.Theory.
Local Open Scope ring_scope.

(** If D or the degree of interval i exceeds Kmax, it is replaced by n intervals of equal length that cover it, where n is the least number, at
    least 2, for which n intervals with Kmin points have D points together. *)
Theorem C19_count (F : realFieldType) (Kmin Kmax : nat) (m : seq (nat * F)) i D : (0 < Kmin)%N -> (Kmin <= Kmax)%N -> (i < size m)%N ->
  (Kmax < D)%N || (Kmax < N_colloc_ival m i)%N ->
  exists m' n, [/\ refine_ph Kmin Kmax i D m = Some m', size m' = (size m + n).-1, (2 <= n)%N /\ (D <= n * Kmin)%N,
    forall q, (2 <= q)%N -> (D <= q * Kmin)%N -> (n <= q)%N &
    forall j, (j < n)%N -> tauf m' (i + j) - tau0 m' (i + j) = (tauf m i - tau0 m i) / n%:R].
Proof.
move=> k0 km h s; have [mid [e h1 _]] := C19_refine_ph_partial D k0 km h; have [sz nt] := h1 s.
set n := maxn 2 _ in sz nt; have [c1 c2] := C19_ceil D k0.
have n2 : (2 <= n)%N by rewrite leq_maxl.
have sm : size (take i m ++ mid ++ drop i.+1 m) = (size m + n).-1.
  by rewrite !size_cat size_take size_drop h sz; lia.
exists (take i m ++ mid ++ drop i.+1 m), n; split=> //.
- split=> //; apply: leq_trans c1 _; by rewrite leq_mul2r leq_maxr orbT.
- by move=> q q2 hq; rewrite geq_max q2 /=; apply: c2.
have st : size (take i m) = i by rewrite size_take h.
have T j : (j < n)%N -> tau0 (take i m ++ mid ++ drop i.+1 m) (i + j) = tau0 m i + j%:R * ((tauf m i - tau0 m i) / n%:R).
  move=> hj; rewrite /tau0 nth_cat st ltnNge leq_addr /= addKn nth_cat sz hj.
  by rewrite nt.
have n0 : n%:R != 0 :> F by rewrite pnatr_eq0; lia.
move=> j hj; rewrite T //; case: (ltnP j.+1 n) => hn.
  rewrite {1}/tauf sm ifT; last by lia.
  by rewrite -addnS T // -[j.+1]addn1 natrD; ring.
have -> : tauf (take i m ++ mid ++ drop i.+1 m) (i + j) = tauf m i.
  rewrite {1}/tauf sm; have ej : n = j.+1 by lia.
  rewrite /tauf; case: (ltnP i.+1 (size m)) => hi.
    rewrite ifT; last by lia.
    rewrite /tau0 nth_cat st ifF; last by lia.
    by rewrite nth_cat sz ifF ?nth_drop; [congr (nth _ _ _).2; lia|lia].
  by rewrite ifF //; lia.
have -> : j = n.-1 by lia.
have E : n.-1%:R = n%:R - 1 :> F by rewrite -[in RHS](prednK (ltnW n2)) -[in RHS]addn1 natrD addrK.
set w := (tauf m i - tau0 m i) / n%:R; have W : tauf m i = tau0 m i + n%:R * w by rewrite /w mulrCA divff // mulr1 addrC subrK.
by rewrite E W; ring.
Qed.

(** Two intervals, the second one refined to 5 points with Kmin = 2, Kmax = 3: three intervals of length 1/6. *)
Example C19_count_case : exists m' n, [/\ refine_ph 2 3 1 5 [:: (2%N, 0); (2%N, 1 / 2%:R)] = Some m', size m' = (2 + n).-1, n = 3%N &
  forall j, (j < n)%N -> tauf m' (1 + j) - tau0 m' (1 + j) = (1 - 1 / 2%:R) / 3%:R :> rat].
Proof.
have [//|//|//|//|m' [n [e sz [n2 nD] mn l]]] := @C19_count [realFieldType of rat] 2 3 [:: (2%N, 0); (2%N, 1 / 2%:R)] 1 5.
have n3 : n = 3%N by have := mn 3%N isT isT; lia.
by exists m', n; split=> // j hj; rewrite l // n3.
Qed.
Print Assumptions C19_count.
