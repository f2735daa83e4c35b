(** Theorems about the quadratic programs of active set invariance filters. *)
From mathcomp Require Import all_ssreflect all_algebra zify.
From mathcomp.algebra_tactics Require Import ring.
From Verif Require Import Calc SparseModel QpModel QpSpec MeshFunModel NlpModel NlpSol MpcModel AsifModel AsifProps.
Set Implicit Arguments.
Unset Strict Implicit.
Unset Printing Implicit Defensive.
Import Order.TTheory GRing.Theory Num.Theory.
Local Open Scope ring_scope.
Local Arguments muln : simpl never.

Lemma vgetO (F : realFieldType) n (v : 'cV[F]_n) (j : 'I_n) : vget v j = v j 0.
Proof. by rewrite (vgetE _ (ltn_ord j)); congr (v _ 0); apply: ord_inj. Qed.
Section Thms.
Variable F : realFieldType.
Variables (nx nu nh : nat) (X U : Type).
Variables (xplus : X -> 'cV[F]_nx -> X) (ad : 'cV[F]_nx -> 'M[F]_nx).
Variables (uplus : U -> 'cV[F]_nu -> U) (uminus : U -> U -> 'cV[F]_nu).
Variables (f : X -> U -> 'cV[F]_nx) (dfu : X -> U -> 'M[F]_(nx, nu)).
Variables (h : F -> X -> 'cV[F]_nh) (dht : F -> X -> 'cV[F]_nh) (dhx : F -> X -> 'M[F]_(nh, nx)).
Variables (bu : F -> X -> U) (dfcl : F -> X -> 'M[F]_nx).
Variables (p : pbm F nu X U) (prm : aprm F).
Local Notation K := (aK prm).
Local Notation T := (pT p).
Local Notation lim := (plim p).
Local Notation ni := (bn lim).
Local Notation update := (asif_update xplus ad uminus f dfu h dht dhx bu dfcl p prm).
Local Notation hist := (hist nx nu nh X U K ni).
Local Notation steps := (steps xplus ad f bu dfcl).
Local Notation s0 := (Ast 0 (px0 p) 1%:M : ast F nx X).
(** The smallest sampling interval and the step that is used. *)
Local Notation tau := (T / K%:R).
Local Notation dt := (Num.min (adt prm) tau).

Section Ok.
Definition x_at (ds : seq F) i := at_x (steps (take i ds) s0).
Definition S_at (ds : seq F) i := at_S (steps (take i ds) s0).
Definition t_at (ds : seq F) i : F := \sum_(d <- take i ds) d.
Lemma st_t ds i : at_t (steps (take i ds) s0) = t_at ds i.
Proof. by rewrite steps_t add0r. Qed.
Lemma propagatedE ds : all (fun d => 0 < d <= dt) ds ->
  propagated xplus ad (fun t x => f x (bu t x)) dfcl (px0 p) (size ds) (t_at ds) (x_at ds) (S_at ds).
Proof.
move=> /allP hd; split; rewrite /t_at /x_at /S_at ?take0 ?big_nil // => i hi.
rewrite (take_nth 0 hi) -cats1 big_cat big_seq1 /= steps_cat /= steps_t add0r -/(t_at ds i).
have -> : t_at ds i + nth 0 ds i - t_at ds i = nth 0 ds i by rewrite addrAC subrr add0r.
split=> //; last by rewrite [- ad _ + _]addrC.
by rewrite ltr_addl; case/andP: (hd _ (mem_nth 0 hi)).
Qed.
(** The entries of the program in terms of a discretized trajectory whose samples satisfy I. *)
Definition samples (I : nat -> F -> Prop) (nmax fuel : nat) (q : dqp F) : Prop :=
  exists n t x S idx q', [/\ (n <= nmax)%N /\ propagated xplus ad (fun t x => f x (bu t x)) dfcl (px0 p) n t x S,
    forall i, (i < n)%N -> t i.+1 - t i <= adt prm,
    [/\ idx 0%N = 0%N, idx K = n, (forall k, (k < K)%N -> idx k <= idx k.+1)%N & forall k, (k < K)%N -> I k (t (idx k))],
    update fuel q = Some q' &
    forall k (j : 'I_nh) mu d, (k < K)%N ->
      let i := idx k in
      arow q' mu d (k * nh + j) =
      (0 <= (dht (t i) (x i) + aalpha prm *: h (t i) (x i) + dhx (t i) (x i) *m S i *m (f (px0 p) (pu p) + dfu (px0 p) (pu p) *m mu)) j 0 + d)].
Lemma samplesE I n0 fuel q : (exists ds idx, [/\ (size ds <= K * n0)%N, all (fun d => 0 < d <= dt) ds, idx_ok I K ds idx &
    foldl (k_step xplus ad f dfu h dht dhx bu dfcl p prm fuel) (Some (s0, q)) (iota 0 K) =
      Some (steps ds s0, foldl (fun q j => row_step f dfu h dht dhx p prm j (steps (take (idx j) ds) s0) q) q (iota 0 K))]) ->
  samples I (K * n0) fuel q.
Proof.
move=> [ds [idx [h1 h2 [i1 i2 i3 i4] e2]]].
have [q' e1] : exists q', update fuel q = Some q' by rewrite /asif_update e2; eexists.
exists (size ds), (t_at ds), (x_at ds), (S_at ds), idx, q'; split=> //; first by split=> //; exact: propagatedE.
- move=> i hi; rewrite /t_at (take_nth 0 hi) -cats1 big_cat big_seq1 /= addrAC subrr add0r.
  by have /andP[_] := allP h2 _ (mem_nth 0 hi); rewrite le_minr => /andP[].
- by split=> // k hk; have [_] := i4 k (ltnW hk).
move=> k j mu d hk; have [H _ _ _ _] := update_entries e2 e1.
have [a1 a2 a3 a4] := H k j hk (ltn_ord j); rewrite /arow a2 a3 a4 mul1r.
rewrite (eq_bigr (fun c : 'I_nu => (dhx (t_at ds (idx k)) (x_at ds (idx k)) *m S_at ds (idx k) *m dfu (px0 p) (pu p)) j c * mu c 0)) => [|c _]; last first.
  by rewrite a1 // -/(x_at ds (idx k)) -/(S_at ds (idx k)) st_t /mget !valK.
rewrite /between /lo_ok /hi_ok andbT st_t -/(x_at ds (idx k)) -/(S_at ds (idx k)) vgetO.
rewrite -[LHS]subr_ge0; apply: (congr1 (fun v : F => 0 <= v)).
have addE (A B : 'cV[F]_nh) : (A + B) j 0 = A j 0 + B j 0 by rewrite mxE.
have oppE (A : 'cV[F]_nh) : (- A) j 0 = - A j 0 by rewrite mxE.
rewrite mulmxDr mulmxA !(addE, oppE) [(_ *m mu) j 0]mxE.
move: (dht _ _ _ _) ((aalpha prm *: h _ _) j 0) ((_ *m f _ _) j 0) (\sum_(i < nu) _) => a b c e; ring.
Qed.
Hypotheses (T0 : 0 < T) (dt0 : 0 < adt prm) (K0 : (0 < K)%N).
(** * C54: sample times *)
(** Full statement: sample k is taken at k tau.  In general it is taken at the first step of the integration at or after
    k tau. *)
Theorem C54_times_partial n0 fuel q : (0 < n0)%N -> tau <= n0%:R * adt prm -> (n0 < fuel)%N ->
  samples (fun k t => tau * k%:R <= t < tau * k%:R + dt) (K * n0) fuel q.
Proof. by move=> n1 hn hf; apply: samplesE; exact: near_ok. Qed.
(** If dt divides tau. *)
Theorem C54_divides n fuel q : (0 < n)%N -> tau = n%:R * adt prm -> (n < fuel)%N ->
  samples (fun k t => t = tau * k%:R) (K * n) fuel q.
Proof.
move=> n1 hn hf; apply: samplesE; have e : dtv p prm = adt prm.
  by apply/min_idPl; rewrite /AsifModel.tau hn -[X in X <= _]mul1r ler_wpmul2r ?ler1n // ltW.
have hn' : AsifModel.tau p prm = n%:R * dtv p prm by rewrite e.
exact: (exact_ok xplus ad f dfu h dht dhx bu dfcl T0 dt0 K0 hf q K hn').
Qed.
(** If dt is at least tau, one step per sample. *)
Theorem C54_large fuel q : tau <= adt prm -> (1 < fuel)%N -> samples (fun k t => t = tau * k%:R) K fuel q.
Proof.
move=> hn hf; suff : samples (fun k t => t = tau * k%:R) (K * 1) fuel q by rewrite muln1.
apply: samplesE; have e : dtv p prm = tau by apply/min_idPr.
have hn' : AsifModel.tau p prm = 1%:R * dtv p prm by rewrite e mul1r.
exact: (exact_ok xplus ad f dfu h dht dhx bu dfcl T0 dt0 K0 hf q K hn').
Qed.
(** * C52: barrier rows, for dynamics that are affine in the input *)
Theorem C52_rows n0 fuel q : (0 < n0)%N -> tau <= n0%:R * adt prm -> (n0 < fuel)%N ->
  (forall mu, f (px0 p) (uplus (pu p) mu) = f (px0 p) (pu p) + dfu (px0 p) (pu p) *m mu) ->
  exists n t x S idx q', [/\ propagated xplus ad (fun t x => f x (bu t x)) dfcl (px0 p) n t x S,
    forall k, (k < K)%N -> (idx k <= n)%N /\ tau * k%:R <= t (idx k) < tau * k%:R + dt,
    update fuel q = Some q' &
    forall k (j : 'I_nh) mu d, (k < K)%N ->
      let i := idx k in
      arow q' mu d (k * nh + j) =
      (0 <= dht (t i) (x i) j 0 + (dhx (t i) (x i) *m S i *m f (px0 p) (uplus (pu p) mu)) j 0 + aalpha prm * h (t i) (x i) j 0 + d)].
Proof.
move=> n1 hn hf haff; have [n [t [x [S [idx [q' [[h0 h1] h2 [i1 i2 i3 i4] h4 h5]]]]]]] := C54_times_partial q n1 hn hf.
exists n, t, x, S, idx, q'; split=> //.
  move=> k hk; split; last exact: i4.
  rewrite -i2; have : (k <= K)%N by rewrite ltnW.
  elim: (K) i3 {i1 i2 i4 h5 hk} => [_|k' IH i3]; first by rewrite leqn0 => /eqP ->.
  rewrite leq_eqVlt => /orP[/eqP -> //|hk]; apply: leq_trans (i3 k' (ltnSn _)); apply: IH hk => j hj; apply: i3; exact: ltnW.
move=> k j mu d hk i; rewrite h5 // haff -/i.
have addE (A B : 'cV[F]_nh) : (A + B) j 0 = A j 0 + B j 0 by rewrite mxE.
by rewrite !addE [(_ *: h _ _) _ _]mxE [dht _ _ j 0 + _ * _ + _]addrAC.
Qed.
(** * C57: termination *)
Theorem C57_bound n0 : tau <= n0%:R * adt prm -> forall fuel q, (maxn 1 n0 < fuel)%N -> exists q', update fuel q = Some q'.
Proof.
move=> hn fuel q hf; have hn1 : tau <= (maxn 1 n0)%:R * adt prm.
  by apply: le_trans hn _; rewrite ler_pmul2r // ler_nat leq_maxr.
by have [n [t [x [S [idx [q' [_ _ _ e _]]]]]]] := C54_times_partial q (leq_maxl 1 n0) hn1 hf; exists q'.
Qed.
End Ok.
(** Without hypotheses, the exact condition for termination. *)
Theorem C57_diverges fuel q : (0 < K)%N -> 0 < T -> adt prm <= 0 -> update fuel q = None.
Proof.
move=> K0 T0 d0; have t0 : 0 < tau by rewrite divr_gt0 // ltr0n.
rewrite /asif_update; case: (K) K0 => [//|k] _ /=.
rewrite /time_step loop_diverges /= ?mulr1 //; last by rewrite le_minl le_minl d0.
by elim: (iota _ _).
Qed.
End Thms.
