(** Facts about the mesh functions: entries of the accumulated matrices, derivative of the node arguments. *)
From mathcomp Require Import all_ssreflect all_algebra zify.
From mathcomp.algebra_tactics Require Import ring.
From Verif Require Import Calc MeshModel SparseModel SparseFacts MeshFunModel.
Set Implicit Arguments.
Unset Strict Implicit.
Unset Printing Implicit Defensive.
Import Order.TTheory GRing.Theory Num.Theory.
Local Open Scope ring_scope.

Section Facts.
Variable F : realFieldType.
Variables nx nu : nat.
Local Notation nz := (1 + nx + nu)%N.

(** The variables are [t0, tf, x_0 .. x_N, u_0 .. u_(N-1)]; X0 and U0 are the offsets of x_i and u_i. *)
Section Class.
Variables (X0 U0 : nat) (tau : F).
Hypotheses (hX : (2 <= X0)%N) (hU : (X0 + nx <= U0)%N).
Definition argn (c : nat) : nat :=
  if (c < 2)%N then 0%N else if (X0 <= c < X0 + nx)%N then (1 + (c - X0))%N
  else if (U0 <= c < U0 + nu)%N then (1 + nx + (c - U0))%N else 0%N.
Definition cofn (c : nat) : F :=
  if c == 0%N then 1 - tau else if c == 1%N then tau else
  if (X0 <= c < X0 + nx)%N || (U0 <= c < U0 + nu)%N then 1 else 0.
Definition dTn (c : nat) : F := (c == 1%N)%:R - (c == 0%N)%:R.

Definition inr (a n r : nat) : bool := (a <= r < a + n)%N.
Lemma inrE a n r : inr a n r = (a <= r < a + n)%N. Proof. by []. Qed.
Variant cls (r : nat) : bool -> bool -> bool -> bool -> nat -> F -> F -> Prop :=
| ClsT0 of r = 0%N : cls r true false false false 0%N (1 - tau) (-1)
| ClsTf of r = 1%N : cls r false true false false 0%N tau 1
| ClsX of (X0 <= r < X0 + nx)%N : cls r false false true false (1 + (r - X0))%N 1 0
| ClsU of (U0 <= r < U0 + nu)%N : cls r false false false true (1 + nx + (r - U0))%N 1 0
| ClsN of (2 <= r)%N & ~~ (X0 <= r < X0 + nx)%N & ~~ (U0 <= r < U0 + nu)%N : cls r false false false false 0%N 0 0.
Lemma clsP r : cls r (inr 0 1 r) (inr 1 1 r) (inr X0 nx r) (inr U0 nu r) (argn r) (cofn r) (dTn r).
Proof.
have xF : (r < 2)%N -> (X0 <= r < X0 + nx)%N = false by move=> h; apply/negbTE/negP => /andP[h' _]; lia.
have uF : (r < X0 + nx)%N -> (U0 <= r < U0 + nu)%N = false by move=> h; apply/negbTE/negP => /andP[h' _]; lia.
rewrite /inr /argn /cofn /dTn; case: (ltnP r 2) => h2.
  rewrite xF // uF; last lia.
  case: r h2 {xF uF} => [|[|//]] _; rewrite /= ?sub0r ?subr0; [exact: ClsT0|exact: ClsTf].
have -> : (r == 0%N) = false by lia.
have -> : (r == 1%N) = false by lia.
have -> : (0 <= r < 0 + 1)%N = false by lia.
rewrite andbF subrr; case E : (X0 <= r < X0 + nx)%N => /=.
  by rewrite uF; [apply: ClsX|lia].
by case E' : (U0 <= r < U0 + nu)%N => /=; [apply: ClsU|apply: ClsN; rewrite ?E ?E'].
Qed.
Lemma argn_lt c : (argn c < nz)%N.
Proof. by case: (clsP c) => * //; lia. Qed.


Lemma contribB r0 c0 e br bc n k (sc : F) up r c : contrib (Bop r0 c0 (block e br bc n k) sc up) r c =
  if inr r0 n r && inr c0 k c && (~~ up || (r <= c)%N) then sc * val e (br + (r - r0)) (bc + (c - c0)) else 0.
Proof. by rewrite /contrib /inb /= -!inrE andbA. Qed.
Lemma contribD r0 c0 g n k (sc : F) up r c : contrib (Bop r0 c0 (dense n k g) sc up) r c =
  if inr r0 n r && inr c0 k c && (~~ up || (r <= c)%N) then sc * g (r - r0)%N (c - c0)%N else 0.
Proof. by rewrite /contrib /inb /= -!inrE andbA. Qed.

Variables (df d2f : smat F).
Ltac bsum := rewrite !big_cons big_nil !contribB ?contribD !addr0.

(** Jacobian blocks of output rows row0 .. row0 + nf - 1. *)
Lemma jac_eval nf row0 w r c :
  \sum_(o <- [:: Bop row0 0 (block df 0 0 nf 1) (w * (1 - tau)) false;
           Bop row0 1 (block df 0 0 nf 1) (w * tau) false;
           Bop row0 X0 (block df 0 1 nf nx) w false;
           Bop row0 U0 (block df 0 (1 + nx) nf nu) w false]) contrib o r c =
  if inr row0 nf r then w * (cofn c * val df (r - row0) (argn c)) else 0.
Proof.
bsum; rewrite !add0n; case: (inr row0 nf r); rewrite /= ?addr0 //.
by case: (clsP c) => [->|->|h|h|_ _ _] /=; rewrite ?add0n ?sub0n ?subnn; ring.
Qed.
Lemma jac_int nf row0 w T (fv : nat -> F) r c :
  \sum_(o <- [:: Bop row0 0 (block df 0 0 nf 1) (w * T * (1 - tau)) false;
           Bop row0 0 (dense nf 1 (fun r _ => fv r)) (- w) false;
           Bop row0 1 (block df 0 0 nf 1) (w * T * tau) false;
           Bop row0 1 (dense nf 1 (fun r _ => fv r)) w false;
           Bop row0 X0 (block df 0 1 nf nx) (w * T) false;
           Bop row0 U0 (block df 0 (1 + nx) nf nu) (w * T) false]) contrib o r c =
  if inr row0 nf r then w * (dTn c * fv (r - row0)%N + T * (cofn c * val df (r - row0) (argn c))) else 0.
Proof.
bsum; rewrite !add0n; case: (inr row0 nf r); rewrite /= ?addr0 //.
by case: (clsP c) => [->|->|h|h|_ _ _] /=; rewrite ?add0n ?sub0n ?subnn; ring.
Qed.
Lemma jac_dyn nf row0 w T (fv : nat -> F) r c :
  \sum_(o <- [:: Bop row0 0 (dense nf 1 (fun r _ => fv r)) (- w) false;
           Bop row0 0 (block df 0 0 nf 1) (w * T * (1 - tau)) false;
           Bop row0 1 (dense nf 1 (fun r _ => fv r)) w false;
           Bop row0 1 (block df 0 0 nf 1) (w * T * tau) false;
           Bop row0 X0 (block df 0 1 nf nx) (w * T) false;
           Bop row0 U0 (block df 0 (1 + nx) nf nu) (w * T) false]) contrib o r c =
  if inr row0 nf r then w * (dTn c * fv (r - row0)%N + T * (cofn c * val df (r - row0) (argn c))) else 0.
Proof.
bsum; rewrite !add0n; case: (inr row0 nf r); rewrite /= ?addr0 //.
by case: (clsP c) => [->|->|h|h|_ _ _] /=; rewrite ?add0n ?sub0n ?subnn; ring.
Qed.

(** Hessian blocks. *)
Lemma hess_eval wl b r c :
  \sum_(o <- [:: Bop 0 0 (block d2f 0 (b + 0) 1 1) (wl * (1 - tau) * (1 - tau)) true;
           Bop 0 1 (block d2f 0 (b + 0) 1 1) (wl * (1 - tau) * tau) true;
           Bop 0 X0 (block d2f 0 (b + 1) 1 nx) (wl * (1 - tau)) true;
           Bop 0 U0 (block d2f 0 (b + (1 + nx)) 1 nu) (wl * (1 - tau)) true;
           Bop 1 1 (block d2f 0 (b + 0) 1 1) (wl * tau * tau) true;
           Bop 1 X0 (block d2f 0 (b + 1) 1 nx) (wl * tau) true;
           Bop 1 U0 (block d2f 0 (b + (1 + nx)) 1 nu) (wl * tau) true;
           Bop X0 X0 (block d2f 1 (b + 1) nx nx) wl true;
           Bop X0 U0 (block d2f 1 (b + (1 + nx)) nx nu) wl true;
           Bop U0 U0 (block d2f (1 + nx) (b + (1 + nx)) nu nu) wl true]) contrib o r c =
  if (r <= c)%N then wl * (cofn r * cofn c * val d2f (argn r) (b + argn c)) else 0.
Proof.
bsum; rewrite ![~~ true]/= ![false || _]/=.
case: (leqP r c) => rc; last by rewrite !andbF !addr0.
rewrite !andbT; case: (clsP r) => [er|er|hr|hr|_ _ _]; case: (clsP c) => [ec|ec|hc|hc|hc1 hc2 hc3] //=;
  try (exfalso; lia); rewrite ?er ?ec ?add0n ?sub0n ?subnn ?addn0 -?addnA; try ring.
Qed.
Lemma hess_int wl T j b r c :
  \sum_(o <- [:: Bop 0 0 (block d2f 0 (b + 0) 1 1) (wl * T * (1 - tau) * (1 - tau)) true;
      Bop 0 0 (block df j 0 1 1) (- wl * 2%:R * (1 - tau)) true;
      Bop 0 1 (block d2f 0 (b + 0) 1 1) (wl * T * (1 - tau) * tau) true;
      Bop 0 1 (block df j 0 1 1) (wl * (1 - 2%:R * tau)) true;
      Bop 0 X0 (block d2f 0 (b + 1) 1 nx) (wl * T * (1 - tau)) true;
      Bop 0 X0 (block df j 1 1 nx) (- wl) true;
      Bop 0 U0 (block d2f 0 (b + (1 + nx)) 1 nu) (wl * T * (1 - tau)) true;
      Bop 0 U0 (block df j (1 + nx) 1 nu) (- wl) true;
      Bop 1 1 (block d2f 0 (b + 0) 1 1) (wl * T * tau * tau) true;
      Bop 1 1 (block df j 0 1 1) (wl * 2%:R * tau) true;
      Bop 1 X0 (block d2f 0 (b + 1) 1 nx) (wl * T * tau) true;
      Bop 1 X0 (block df j 1 1 nx) wl true;
      Bop 1 U0 (block d2f 0 (b + (1 + nx)) 1 nu) (wl * T * tau) true;
      Bop 1 U0 (block df j (1 + nx) 1 nu) wl true;
      Bop X0 X0 (block d2f 1 (b + 1) nx nx) (wl * T) true;
      Bop X0 U0 (block d2f 1 (b + (1 + nx)) nx nu) (wl * T) true;
      Bop U0 U0 (block d2f (1 + nx) (b + (1 + nx)) nu nu) (wl * T) true]) contrib o r c =
  if (r <= c)%N then wl * (T * (cofn r * cofn c * val d2f (argn r) (b + argn c)) +
     dTn r * (cofn c * val df j (argn c)) + dTn c * (cofn r * val df j (argn r))) else 0.
Proof.
bsum; rewrite ![~~ true]/= ![false || _]/=.
case: (leqP r c) => rc; last by rewrite !andbF !addr0.
rewrite !andbT; case: (clsP r) => [er|er|hr|hr|_ _ _]; case: (clsP c) => [ec|ec|hc|hc|hc1 hc2 hc3] //=;
  try (exfalso; lia); rewrite ?er ?ec ?add0n ?sub0n ?subnn ?addn0 -?addnA; try ring.
Qed.
End Class.
End Facts.
