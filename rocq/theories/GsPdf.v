(* The densities of the Gaussian sums: proofs. *)
From mathcomp Require Import all_ssreflect all_algebra.
From mathcomp Require Import ring.
From Verif Require Import Prelude LinAlgSpec LinAlgProofs GfsProofs ConvModel ConvProofs SsModel SsProofs GsPdfModel.
Set Implicit Arguments.
Unset Strict Implicit.
Unset Printing Implicit Defensive.
Import Order.TTheory GRing.Theory Num.Theory.
Local Open Scope ring_scope.

(* the density of the normal law N(mean, cov) *)
Definition mvn_density (R : rcfType) (exp : R -> R) (pi : R) d (mean : 'cV[R]_d) (cov : 'M[R]_d) (x : 'cV[R]_d) : R :=
  exp (- 2%:R^-1 * qform (invmx cov) (x - mean)) / Num.sqrt ((2%:R * pi) ^+ d * \det cov).

Section P.
Variable R : rcfType.
Variables (exp log : R -> R) (pi : R).
Hypothesis eA : exp_add exp.
Hypothesis eP : exp_spec exp.
Hypothesis lP : log_spec exp log.
Hypothesis pi0 : 0 < pi.

Lemma e_gt0 x : 0 < exp x. Proof. by case: eP. Qed.
Lemma e0 : exp 0 = 1.
Proof. by apply: (mulfI (lt0r_neq0 (e_gt0 0))); rewrite -eA addr0 mulr1. Qed.
Lemma eN x : exp (- x) = (exp x)^-1.
Proof. by apply: (mulfI (lt0r_neq0 (e_gt0 x))); rewrite -eA subrr e0 divff // lt0r_neq0 // e_gt0. Qed.
Lemma e_nat n x : exp (n%:R * x) = exp x ^+ n.
Proof. by elim: n => [|n ih]; rewrite ?mul0r ?e0 // -[n.+1]add1n natrD mulrDl mul1r eA ih exprS. Qed.
Lemma e_sum (I : finType) (f : I -> R) : exp (\sum_i f i) = \prod_i exp (f i).
Proof. by rewrite (big_morph exp eA e0). Qed.
Lemma e_sqrt x u : exp (2%:R * x) = u -> exp x = Num.sqrt u.
Proof. by rewrite e_nat => <-; rewrite sqrtr_sqr gtr0_norm // e_gt0. Qed.

Variable chol : forall n, 'M[R]_n -> 'M[R]_n.
Hypothesis cholP : chol_spec chol.

Lemma mvn_pdfE d (x mean : 'cV[R]_d) cov : posdef cov ->
  mvn_pdf exp log pi chol x mean cov = mvn_density exp pi mean cov x.
Proof.
move=> pC; have [tL dL eL] := cholP pC; rewrite /mvn_pdf /mvn_logpdf /mvn_density.
set L := chol cov in tL dL eL *.
have uL : L \in unitmx by rewrite unitmxE det_trig // unitfE; apply/prodf_neq0 => i _; rewrite lt0r_neq0.
have -> : \sum_i (invmx L *m (x - mean)) i 0 * (invmx L *m (x - mean)) i 0 = qform (invmx cov) (x - mean).
  rewrite /qform -eL; set u := x - mean.
  have -> : invmx (L *m L^T) = (invmx L)^T *m invmx L.
    have uT : L^T \in unitmx by rewrite unitmx_tr.
    apply: (can_inj (mulKmx (_ : L *m L^T \in unitmx))); first by rewrite unitmx_mul uL.
    by rewrite mulmxV ?unitmx_mul ?uL // trmx_inv mulmxA -[X in _ = X *m _]mulmxA mulmxV // mulmx1 mulmxV.
  have -> : u^T *m ((invmx L)^T *m invmx L) *m u = (invmx L *m u)^T *m (invmx L *m u) by rewrite trmx_mul !mulmxA.
  by move: (invmx L *m u) => y; rewrite [RHS]mxE; apply: eq_bigr => i _; rewrite [y^T _ _]mxE.
rewrite -addrA -opprD eA eN; congr (_ / _); apply: e_sqrt.
rewrite mulrDr eA; congr (_ * _).
  have -> : 2%:R * (d%:R / 2%:R * log (2%:R * pi)) = d%:R * log (2%:R * pi).
    by rewrite mulrA mulrCA divff ?mulr1 // pnatr_eq0.
  by rewrite e_nat (proj2 lP) // mulr_gt0 ?ltr0n.
rewrite e_nat e_sum -eL det_mulmx det_tr det_trig // -expr2; congr (_ ^+ 2).
by apply: eq_bigr => i _; rewrite (proj2 lP).
Qed.

Lemma jsumB (s : seq R) : jsum s = \sum_(x <- s) x.
Proof. by elim: s => [|x s ih]; rewrite ?big_nil ?big_cons //= ih. Qed.

Lemma norm_pdf1 (x m v : R) : 0 < v ->
  norm_pdf exp log pi x m (Num.sqrt v) = exp (- (x - m) ^+ 2 / (2%:R * v)) / Num.sqrt (2%:R * pi * v).
Proof.
move=> v0; rewrite /norm_pdf /norm_logpdf sqr_sqrtr ?ltW //.
have u0 : 0 < 2%:R * pi * v by rewrite !mulr_gt0 ?ltr0n.
have -> : (log (2%:R * pi * v) + (x - m) ^+ 2 / v) / - 2%:R = - (x - m) ^+ 2 / (2%:R * v) + - (log (2%:R * pi * v) / 2%:R).
  have n2 : (2%:R : R) != 0 by rewrite pnatr_eq0.
  move: (log _) => l; move: (x - m) => z; field; by rewrite lt0r_neq0.
rewrite eA eN; congr (_ / _); apply: e_sqrt.
by rewrite mulrCA divff ?pnatr_eq0 // mulr1 (proj2 lP).
Qed.

(* logsumexp with non-negative weights of which one is positive *)
Lemma logsumexpE (a b : seq R) : size a = size b -> all (fun w => 0 <= w) b -> has (fun w => 0 < w) b ->
  exp (logsumexp exp log a b) = \sum_(p <- zip a b) exp p.1 * p.2.
Proof.
move=> sz b0 b1; rewrite /logsumexp /lse_args; set t := lse_terms a b; set M := lse_max a b.
have -> : [seq exp p.1 * p.2 | p <- zip [seq p.1 - M | p <- t] [seq p.2 | p <- t]] = [seq exp (p.1 - M) * p.2 | p <- t].
  by rewrite zip_map -map_comp.
have hs : \sum_(p <- zip a b) exp p.1 * p.2 = \sum_(p <- t) exp p.1 * p.2.
  rewrite /t /lse_terms big_filter [LHS](bigID (fun p => p.2 != 0)) /= [X in _ + X]big1 ?addr0 // => p.
  by rewrite negbK => /eqP ->; rewrite mulr0.
have e1 : jsum [seq exp (p.1 - M) * p.2 | p <- t] = exp (- M) * \sum_(p <- t) exp p.1 * p.2.
  by rewrite jsumB big_map mulr_sumr; apply: eq_bigr => p _; rewrite eA mulrAC [RHS]mulrC.
rewrite eA (proj2 lP) e1 -?hs; first by rewrite eN mulrAC mulVf ?mul1r // lt0r_neq0 // e_gt0.
rewrite mulr_gt0 ?e_gt0 // {e1 hs M t}.
have [p hp hp2] : exists2 p, p \in zip a b & 0 < p.2.
  have /hasP [w hw w0] := b1; rewrite -(unzip2_zip (s := a) (t := b)) ?sz // in hw.
  by case/mapP: hw => p hp e; exists p; rewrite // -e.
have nn q : q \in zip a b -> 0 <= q.2.
  by move=> hq; apply: (allP b0); rewrite -(unzip2_zip (s := a) (t := b)) ?sz // map_f.
have : 0 <= \sum_(q <- rem p (zip a b)) exp q.1 * q.2.
  rewrite big_seq sumr_ge0 // => q /mem_rem /nn h; by rewrite mulr_ge0 // ltW ?e_gt0.
rewrite (perm_big _ (perm_to_rem hp)) big_cons /= => h; by rewrite ltr_paddr // mulr_gt0 // e_gt0.
Qed.

(* no argument of exp is positive, so exp does not overflow, and one is zero, so the sum does not vanish *)
Lemma lse_safe (a b : seq R) : has (fun p => p.2 != 0) (zip a b) ->
  all (fun u => u <= 0) (lse_args a b) /\ 0 \in lse_args a b.
Proof.
rewrite has_filter -/(lse_terms a b) /lse_args /lse_max; move: (lse_terms a b) => t t0.
set s := [seq p.1 | p <- t]; set M := foldr _ _ _.
have -> : [seq p.1 - M | p <- t] = [seq x - M | x <- s] by rewrite -map_comp.
have s0 : s != [::] by rewrite /s; case: t t0 {s M}.
have aux (c : R) (r : seq R) : foldr Num.max c r \in c :: r /\ {in r, forall x, x <= foldr Num.max c r}.
  elim: r => [|y r [h1 h2]] /=; first by split=> [|x]; rewrite ?inE ?eqxx.
  split.
    case: leP => _; last by rewrite !inE eqxx orbT.
    by move: h1; rewrite !inE => /orP [->|->]; rewrite ?orbT.
  by move=> x; rewrite inE => /orP [/eqP ->|/h2 u]; rewrite le_maxr ?lexx // u orbT.
have [h1 h2] := aux (head 0 s) s; split.
  by apply/allP => u /mapP [x hx ->]; rewrite subr_le0 h2.
rewrite -[0](subrr M); apply: map_f; move: h1; rewrite -/M inE => /orP [/eqP ->|//].
by case: (s) s0 => //= y r _; rewrite mem_head.
Qed.

Lemma gsn_logpdfE d (means : seq 'cV[R]_d) covs weights x : size means = size weights -> size covs = size weights ->
  all (fun w => 0 <= w) weights -> has (fun w => 0 < w) weights ->
  exp (gsn_logpdf exp log pi chol means covs weights x) = gsn_pdf exp log pi chol means covs weights x.
Proof.
move=> s1 s2 w0 w1; rewrite /gsn_logpdf logsumexpE //; last by rewrite size_map size_zip s1 s2 minnn.
have zm (A B C : Type) (f : A -> B) (u : seq A) (w : seq C) : zip (map f u) w = [seq (f p.1, p.2) | p <- zip u w].
  by elim: u w => [|y u ih] [|z w] //=; rewrite ih.
by rewrite /gsn_pdf jsumB big_map zm big_map.
Qed.

Lemma gsn_pdfE d (means : seq 'cV[R]_d) covs weights x : size means = size weights -> size covs = size weights ->
  {in covs, forall C, posdef C} ->
  gsn_pdf exp log pi chol means covs weights x
  = \sum_(t <- zip (zip means covs) weights) t.2 * mvn_density exp pi t.1.1 t.1.2 x.
Proof.
move=> s1 s2 pC; rewrite /gsn_pdf jsumB big_map big_seq [RHS]big_seq; apply: eq_bigr => t ht.
rewrite mulrC mvn_pdfE //; apply: pC.
have h : t.1 \in zip means covs.
  by rewrite -(@unzip1_zip _ _ (zip means covs) weights) ?size_zip ?s1 ?s2 ?minnn // map_f.
by rewrite -(@unzip2_zip _ _ means covs) ?s1 ?s2 // map_f.
Qed.

Lemma gs1_pdfE means variances weights (xs : seq R) : size means = size weights -> size variances = size weights ->
  all (fun v => 0 < v) variances ->
  gs1_pdf exp log pi means variances weights xs
  = [seq \sum_(t <- zip (zip means variances) weights)
      t.2 * (exp (- (x - t.1.1) ^+ 2 / (2%:R * t.1.2)) / Num.sqrt (2%:R * pi * t.1.2)) | x <- xs].
Proof.
move=> s1 s2 pv; rewrite /gs1_pdf; apply: eq_map => x; rewrite jsumB big_map big_seq [RHS]big_seq; apply: eq_bigr => t ht.
rewrite mulrC norm_pdf1 //.
have h : t.1 \in zip means variances.
  by rewrite -(@unzip1_zip _ _ (zip means variances) weights) ?size_zip ?s1 ?s2 ?minnn // map_f.
by apply: (allP pv); rewrite -(@unzip2_zip _ _ means variances) ?s1 ?s2 // map_f.
Qed.
End P.
