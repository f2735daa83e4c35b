(** Piecewise polynomials evaluated on one mesh and sampled on another one (lemmas for C92). *)
From mathcomp Require Import all_ssreflect all_algebra zify.
From mathcomp.algebra_tactics Require Import ring.
From Verif Require Import MeshModel MeshSpec PolyFacts MeshFacts MeshQuad MeshEval MeshProps.
Set Implicit Arguments.
Unset Strict Implicit.
Unset Printing Implicit Defensive.
Import Order.TTheory GRing.Theory Num.Theory.
Local Open Scope ring_scope.

Section Closed.
Variable F : realFieldType.
Variables Kmin Kmax : nat.
Variable lgr : nat -> seq F * seq F.
Variable bis : seq F -> F -> option nat.
Hypothesis Kmin0 : (0 < Kmin)%N.
Hypothesis Hl : forall K, (Kmin <= K <= Kmax.+1)%N -> lgr_contract K (lgr K).
Hypothesis Hb : bis_contract bis.
Variable m : seq (nat * F).
Hypothesis Hp : is_partition m.
Hypothesis Hr : all (range Kmin Kmax) m.
Notation N := (sumn [seq x.1 | x <- m]).
Notation K i := (N_colloc_ival m i).
Notation ev := (eval Kmin Kmax lgr bis m).
Notation nodes := (all_nodes Kmin Kmax lgr m).
Notation en := (eval_nodes lgr m).

Lemma N_beforeS i : (i < size m)%N -> N_before m i.+1 = (N_before m i + K i)%N.
Proof. by move=> h; rewrite /N_before (take_nth (0%N, 0)) // map_rcons sumn_rcons. Qed.
Lemma N_bound ext i : (i < size m)%N -> (N_before m i + size (en ext i) <= (if ext then N.+1 else N))%N.
Proof.
move=> h; rewrite (size_eval_nodes Hl Hr) //.
have b : (N_before m i + K i <= N)%N by rewrite (N_split h) leq_add2l leq_addr.
case: (boolP (i.+1 < size m)%N) => h1; last by rewrite orbF; case: ext; lia.
rewrite orbT; have : (N_before m i + (K i).+1 <= N)%N; last by case: ext; lia.
rewrite (N_split h) (drop_nth (0%N, 0)) //=; have := K_pos Kmin0 Hr h1.
by rewrite -/(K i.+1); move: (sumn _) (K i.+1) (K i) (N_before m i); lia.
Qed.
Lemma tnode0 i : (i < size m)%N -> tnode lgr m i 0 = tau0 m i.
Proof. by move=> h; rewrite /tnode lp_first ?phi_m1 ?(K_pos Kmin0 Hr h) //; exact: (lgr_at Hl Hr h). Qed.
Lemma tnodeK i : (i < size m)%N -> tnode lgr m i (K i) = tauf m i.
Proof. by move=> h; rewrite /tnode lp_last ?phi_1 //; exact: (lgr_at Hl Hr h). Qed.
(** The node after the last one of an interval is its end. *)
Lemma node_at i j : (i < size m)%N -> (j <= K i)%N -> nth 0 nodes (N_before m i + j) = tnode lgr m i j.
Proof.
move=> h hj; case: (ltnP j (n_take m i)) => hn; first exact: (nodes_at Kmin0 Hl Hr).
have h1 : (i.+1 < size m)%N by move: hn; rewrite /n_take; case: ifP => //; lia.
have e : j = K i by move: hn; rewrite /n_take h1; lia.
have K1 := K_pos Kmin0 Hr h1.
rewrite e -N_beforeS // -[N_before m i.+1]addn0 (nodes_at Kmin0 Hl Hr) //; last first.
  by rewrite /n_take; case: ifP; lia.
by rewrite tnode0 // tnodeK // /tauf h1.
Qed.
Lemma uu_tauf i : (i < size m)%N -> uu m i (tauf m i) = 1.
Proof.
move=> h; rewrite /uu mulfK; first by rewrite mulr2n addrK.
by rewrite subr_eq0 gt_eqF // partition_lt.
Qed.
(** eval is given by the polynomial of the interval also at its right end. *)
Lemma eval_closed (V : lmodType F) i t (r : seq V) ext : size r = (if ext then N.+1 else N) -> (i < size m)%N ->
  tau0 m i <= t <= tauf m i ->
  ev t r 0 ext = \sum_(j < size (en ext i)) (lagrange (en ext i) j).[uu m i t] *: nth 0 r (N_before m i + j).
Proof.
move=> sr h /andP[ta tb].
have [c|nc] : contains m i t \/ ((i.+1 < size m)%N /\ t = tauf m i).
  case: (boolP (i.+1 < size m)%N) => h1; last first.
    left; split=> //; first by apply: le_trans tb _; exact: tauf_le1.
    by rewrite (negbTE h1).
  move: tb; rewrite le_eqVlt => /orP[/eqP ->|tb]; [by right|left; split=> //].
  by apply: le_trans (ltW tb) _; exact: tauf_le1.
  by rewrite (evalE Kmin0 Hl Hb Hp Hr _ c) // sr N_bound.
have [h1 ->] := nc; have K1 := K_pos Kmin0 Hr h1.
have hn : (0 < n_take m i.+1)%N by rewrite /n_take; case: ifP.
have hK : (K i < size (en ext i))%N by rewrite (size_eval_nodes Hl Hr) // h1 orbT.
have -> : tauf m i = tnode lgr m i.+1 0 by rewrite tnode0 // /tauf h1.
rewrite (eval_node Kmin0 Hl Hb Hp Hr) //.
- rewrite tnode0 // (_ : tau0 m i.+1 = tauf m i); last by rewrite /tauf h1.
  rewrite uu_tauf // -[1](lp_last (lgr_at Hl Hr h)).
  have -> : (lgr_plus_one lgr (K i)).1 = en ext i by rewrite /eval_nodes h1 orbT.
  have u := uniq_eval_nodes Hl Hr ext h.
  rewrite (bigD1 (Ordinal hK)) //= lagrange_node // eqxx scale1r big1 ?addr0 ?N_beforeS ?addn0 // => k ne.
  rewrite lagrange_node // (negbTE (_ : K i != k)) ?scale0r //.
  by apply: contra ne => /eqP e; apply/eqP/val_inj.
- by rewrite (size_eval_nodes Hl Hr) //; case: ifP.
- by rewrite sr N_bound.
Qed.
End Closed.

Section Transfer.
Variable F : realFieldType.
Variables Kmin Kmax : nat.
Variable lgr : nat -> seq F * seq F.
Variable bis : seq F -> F -> option nat.
Hypothesis Kmin0 : (0 < Kmin)%N.
Hypothesis Hl : forall K, (Kmin <= K <= Kmax.+1)%N -> lgr_contract K (lgr K).
Hypothesis Hb : bis_contract bis.
Variables m m' : seq (nat * F).
Hypotheses (Hp : is_partition m) (Hr : all (range Kmin Kmax) m).
Hypotheses (Hp' : is_partition m') (Hr' : all (range Kmin Kmax) m').
Notation N := (sumn [seq x.1 | x <- m]).
Notation N' := (sumn [seq x.1 | x <- m']).

(** Interval i' of m' lies in interval i of m and has at least as many points. *)
Definition inside i i' : Prop :=
  [/\ (i < size m)%N, tau0 m i <= tau0 m' i', tauf m' i' <= tauf m i & (N_colloc_ival m i <= N_colloc_ival m' i')%N].

Lemma last_inside i i' : (i' < size m')%N -> inside i i' -> (i.+1 < size m)%N -> (i'.+1 < size m')%N.
Proof.
move=> h' [h a b _] h1; rewrite ltnNge; apply/negP=> h1'.
have e : tauf m' i' = 1 by rewrite /tauf ltnNge h1'.
move: b; rewrite e /tauf h1 leNgt => /negP; apply.
case: (Hp) => _ s; rewrite -nth_ends //.
have e1 : nth 1 (ends m) (size m) = 1 by rewrite nth_rcons size_map ltnn eqxx.
rewrite -[X in _ < X]e1.
by apply: (sorted_ltn_nth lt_trans _ s); rewrite ?inE ?size_rcons ?size_map //; lia.
Qed.

(** The values of the interpolant on m at the nodes of m' define the same interpolant on such an interval. *)
Lemma transfer (V : lmodType F) (r r' : seq V) ext i i' t :
  size r = (if ext then N.+1 else N) -> size r' = (if ext then N'.+1 else N') ->
  (forall k, (k < size r')%N -> nth 0 r' k = eval Kmin Kmax lgr bis m (nth 0 (all_nodes Kmin Kmax lgr m') k) r 0 ext) ->
  inside i i' -> contains m' i' t ->
  eval Kmin Kmax lgr bis m' t r' 0 ext = eval Kmin Kmax lgr bis m t r 0 ext.
Proof.
move=> sr sr' hv ins c; have h' : (i' < size m')%N by case: c.
case: (ins) => h a b hK.
set xs := eval_nodes lgr m ext i.
have sz : size xs = if ext || (i.+1 < size m)%N then (N_colloc_ival m i).+1 else N_colloc_ival m i := size_eval_nodes Hl Hr ext h.
have sz' : size (eval_nodes lgr m' ext i') = if ext || (i'.+1 < size m')%N then (N_colloc_ival m' i').+1 else N_colloc_ival m' i'
  := size_eval_nodes Hl Hr' ext h'.
have d0 : tauf m i - tau0 m i != 0 by rewrite subr_eq0 gt_eqF // partition_lt.
pose al : F := 2%:R / (tauf m i - tau0 m i).
pose be : F := - (al * tau0 m i) - 1.
have uE s : uu m i s = (al *: 'X + be%:P).[s].
  rewrite hornerD hornerZ hornerX hornerC /uu /be /al; move: d0; move: (tauf m i - tau0 m i) => d d0; by field.
pose ps j := lagrange xs j \Po (al *: 'X + be%:P).
have al0 : al != 0 by rewrite mulf_neq0 ?invr_eq0 ?pnatr_eq0.
have in_i s : tau0 m' i' <= s <= tauf m' i' -> tau0 m i <= s <= tauf m i.
  by case/andP=> s1 s2; rewrite (le_trans a s1) (le_trans s2 b).
have pE s : tau0 m i <= s <= tauf m i ->
  eval Kmin Kmax lgr bis m s r 0 ext = \sum_(j < size xs) (ps j).[s] *: nth 0 r (N_before m i + j).
  move=> hs; rewrite (eval_closed Kmin0 Hl Hb Hp Hr sr h hs); apply: eq_bigr => j _.
  by rewrite /ps horner_comp uE.
have ct : tau0 m' i' <= t <= tauf m' i'.
  case: c => _ c1 c2 c3; rewrite c1 /=; case: (boolP (i'.+1 < size m')%N) => [/c3 /ltW //|n1].
  by rewrite /tauf (negbTE n1).
rewrite (@eval_poly F Kmin Kmax lgr bis Kmin0 Hl Hb m' Hp' Hr' V i' t r' 0 ext (size xs) ps (fun j => nth 0 r (N_before m i + j))) //.
- rewrite pE; last exact: in_i.
  by apply: eq_bigr => j _; rewrite expr0 mul1r derivn0.
- by rewrite sr' (N_bound Kmin0 Hl Hr').
- move=> l hl; rewrite /ps size_comp_affine // (leq_trans (size_lagrange hl)) // sz sz'.
  have L := last_inside h' ins; case: ext {hv sr sr' xs sz sz' ps pE hl} => /=; first by [].
  by case: (boolP (i.+1 < size m)%N) => [/L -> //|_]; case: ifP => _ //; exact: leqW.
move=> j hj; have hj' : (j <= N_colloc_ival m' i')%N by move: hj; rewrite sz'; case: ifP => _ //; exact: ltnW.
rewrite hv; last by rewrite sr'; apply: leq_trans (N_bound Kmin0 Hl Hr' ext h'); rewrite ltn_add2l.
rewrite (node_at Kmin0 Hl Hr') // pE //; apply: in_i.
have cc := lgr_at Hl Hr' h'; have K0 := K_pos Kmin0 Hr' h'.
apply/andP; split.
  rewrite -(tnode0 Kmin0 Hl Hr' h') /tnode; case: j hj hj' => [//|j] hj hj'.
  by apply: ltW; apply: (phi_lt Hp') => //; apply: (lp_lt Kmin0 Hr' cc).
rewrite -(tnodeK Hl Hr' h') /tnode; move: hj'; rewrite leq_eqVlt => /orP[/eqP -> //|hj'].
by apply: ltW; apply: (phi_lt Hp') => //; apply: (lp_lt Kmin0 Hr' cc); rewrite hj' leqnn.
Qed.
End Transfer.
