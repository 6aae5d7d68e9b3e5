(* Lemmas on simulate_sde and vmap_list_of_funcs. *)
From mathcomp Require Import all_ssreflect all_algebra.
From Verif Require Import Prelude LinAlgSpec LinAlgProofs SdeSpec SdeModel SdeLti SmcProofs.
Set Implicit Arguments.
Unset Strict Implicit.
Unset Printing Implicit Defensive.
Import Order.TTheory GRing.Theory Num.Theory.
Local Open Scope ring_scope.

Lemma vmapE (X Y : Type) (dflt : X -> Y) funcs x :
  vmap_list_of_funcs dflt funcs x = [seq f x | f <- funcs].
Proof.
apply: (@eq_from_nth _ (dflt x)); rewrite !size_map size_iota // => i hi.
rewrite (nth_map 0%N) ?size_iota // nth_iota // add0n (nth_map dflt) //.
by rewrite /switch (minn_idPl _) // -ltnS (ltn_predK hi).
Qed.

Section Sim.
Variable R : rcfType.
Variable chol : forall n, 'M[R]_n -> 'M[R]_n.
Section Keys.
Variable Key : Type.
Variable split : Key -> Key * Key.
Variable normal : Key -> nat -> nat -> forall d, seq (seq 'cV[R]_d).

(* jax.random.normal returns an array of the requested shape *)
Definition normal_shape : Prop := forall key T k d,
  size (normal key T k d) = T /\ forall t, (t < T)%N -> size (nth [::] (normal key T k d) t) = k.

Section Path.
Variable d : nat.
Variable step : 'cV[R]_d -> 'cV[R]_d -> 'cV[R]_d.

Lemma foldl_path (path : nat -> 'cV[R]_d) (xs : seq 'cV[R]_d) o :
  (forall i, (i < size xs)%N -> path (o + i.+1)%N = step (path (o + i)%N) (nth 0 xs i)) ->
  foldl step (path o) xs = path (o + size xs)%N.
Proof.
elim: xs o => [|x xs IH] o h /=; first by rewrite addn0.
have := h 0%N; rewrite addn1 addn0 /= => <- //; rewrite IH ?addSnnS // => i hi.
by rewrite !addSnnS (h i.+1).
Qed.

Lemma scan_path (path : nat -> 'cV[R]_d) k (incs : seq (seq 'cV[R]_d)) o :
  (forall t, (t < size incs)%N -> size (nth [::] incs t) = k) ->
  (forall t j, (t < size incs)%N -> (j < k)%N ->
     path (o + (t * k + j).+1)%N = step (path (o + (t * k + j))%N) (nth 0 (nth [::] incs t) j)) ->
  forall t, (t < size incs)%N ->
  nth 0 (scan (fun x inc => let x := foldl step x inc in (x, x)) (path o) incs).2 t
  = path (o + t.+1 * k)%N.
Proof.
elim: incs o => // xs incs IH o hs h t; rewrite scan_cons' [size _]/=.
have e0 : foldl step (path o) xs = path (o + k)%N.
  rewrite -[k in RHS](hs 0%N) //; apply: foldl_path => i; have /= hx := hs 0%N isT; rewrite hx => hi.
  by have := h 0%N i isT hi; rewrite mul0n !add0n.
case: t => [|t] ht; first by rewrite /= e0 mul1n.
rewrite [(nth 0 _ _)]/= e0 (IH (o + k)%N); last exact: ht.
- by rewrite [in RHS]mulSn addnA.
- by move=> u hu; apply: (hs u.+1).
- move=> u j hu hj; have := h u.+1 j hu hj.
  by rewrite mulSn -!addnS -!addnA !addnS.
Qed.
End Path.

Variable d : nat.
Implicit Types (x : 'cV[R]_d) (mc : 'cV[R]_d -> R -> 'cV[R]_d * 'M[R]_d).

Lemma sim_size mc x0 dt T key dg k : normal_shape ->
  size (simulate_sde chol split normal mc x0 dt T key dg k) = T.
Proof. by move=> hn; rewrite /simulate_sde size_scan'; case: (hn (split key).1 T k d). Qed.

Lemma sim_path mc x0 dt T key dg k (path : nat -> 'cV[R]_d) : normal_shape ->
  path 0%N = x0 ->
  (forall t j, (t < T)%N -> (j < k)%N ->
    path (t * k + j).+1 = integration_body chol mc dg (dt / k%:R) (path (t * k + j)%N)
                            (nth 0 (nth [::] (normal (split key).1 T k d) t) j)) ->
  forall t, (t < T)%N ->
  nth 0 (simulate_sde chol split normal mc x0 dt T key dg k) t = path (t.+1 * k)%N.
Proof.
move=> hn h0 h t ht; have [hs hk] := hn (split key).1 T k d.
by rewrite /simulate_sde -h0 (@scan_path _ _ path k _ 0%N) ?hs.
Qed.

(* a diagonal positive definite matrix: the entrywise square root is the Cholesky factor *)
Lemma sqrt_diag_chol n (D : 'rV[R]_n) : (forall i, 0 < D 0 i) ->
  is_chol (map_mx Num.sqrt (diag_mx D)) (diag_mx D).
Proof.
move=> h; have e : map_mx Num.sqrt (diag_mx D) = diag_mx (map_mx Num.sqrt D).
  by apply/matrixP=> i j; rewrite !mxE; case: eqP => // _; rewrite ?mulr1n ?mulr0n // sqrtr0.
rewrite e; split; first exact: diag_mx_is_trig.
  by move=> i; rewrite !mxE eqxx mulr1n sqrtr_gt0.
rewrite tr_diag_mx mulmx_diag; congr diag_mx; apply/rowP=> i.
by rewrite !mxE -expr2 sqr_sqrtr // ltW.
Qed.

Lemma diag_posdef n (D : 'rV[R]_n) : (forall i, 0 < D 0 i) -> posdef (diag_mx D).
Proof.
move=> h; split; first by rewrite /symmetric tr_diag_mx.
move=> u u0; rewrite /qform -mulmxA mxE.
have e i : u^T 0 i * (diag_mx D *m u) i 0 = D 0 i * u i 0 ^+ 2 by rewrite diag_mulE mxE mulrCA expr2.
rewrite (eq_bigr _ (fun i _ => e i)).
have [i ui] : exists i, u i 0 != 0.
  apply/existsP; apply: contraNT u0; rewrite negb_exists => /forallP hu.
  by apply/eqP/colP=> i; rewrite mxE; apply/eqP; have := hu i; rewrite negbK.
have u2 : 0 < u i 0 ^+ 2 by rewrite lt_def sqr_ge0 sqrf_eq0 ui.
rewrite (bigD1 i) //= ltr_paddr //; last exact: mulr_gt0 (h i) u2.
by apply: sumr_ge0 => j _; rewrite mulr_ge0 ?sqr_ge0 // ltW.
Qed.

Lemma sim_diag mc x0 dt T key k : chol_spec chol ->
  (forall x, exists2 D : 'rV[R]_d, (forall i, 0 < D 0 i) & (mc x (dt / k%:R)).2 = diag_mx D) ->
  simulate_sde chol split normal mc x0 dt T key true k =
  simulate_sde chol split normal mc x0 dt T key false k.
Proof.
move=> cP hD.
have e x inc : integration_body chol mc true (dt / k%:R) x inc
             = integration_body chol mc false (dt / k%:R) x inc.
  rewrite /integration_body; have [D D0] := hD x; case: (mc _ _) => m cov /= ->.
  by rewrite (chol_unique (sqrt_diag_chol D0) (cP _ _ (diag_posdef D0))).
rewrite /simulate_sde; move: (normal _ _ _ _) => incs; move: x0.
have ef : forall incs x, foldl (integration_body chol mc true (dt / k%:R)) x incs
             = foldl (integration_body chol mc false (dt / k%:R)) x incs.
  by elim=> // i r IH x /=; rewrite e IH.
by elim: incs => // i r IH x0; rewrite !scan_cons' [LHS]/= [RHS]/= !ef IH.
Qed.

End Keys.

(* ---- linear models are simulated exactly ---- *)
Section Lin.
Variable d : nat.
Variable C : forall n, 'M[R]_n -> Prop.
Variable expm : forall n, 'M[R]_n -> 'M[R]_n.
Hypothesis eP : expm_group C expm.
Variables (w : nat) (A : 'M[R]_d) (B : 'M[R]_(d, w)).
Hypothesis cP : lti_class C A B.
Hypothesis lP : chol_spec chol.

Lemma lin_path h (L : 'M[R]_d) (path : nat -> 'cV[R]_d) eps n :
  (forall i, (i < n)%N -> path i.+1 = Fm expm A h *m path i + L *m eps i) ->
  path n = Fm expm A (n%:R * h) *m path 0%N
           + \sum_(i < n) (Fm expm A ((n - i.+1)%:R * h) *m L) *m eps i.
Proof.
elim: n => [|n IH] hp; first by rewrite mul0r (F0 eP cP) mul1mx big_ord0 addr0.
rewrite hp // IH; last by move=> i hi; apply: hp; rewrite ltnS ltnW.
rewrite big_ord_recr /= subnn mul0r (F0 eP cP) mul1mx mulmxDr !mulmxA -(FD eP cP) addrA; congr (_ + _ + _).
  by congr (Fm _ _ _ *m _); rewrite mulrS mulrDl mul1r.
rewrite mulmx_sumr; apply: eq_bigr => i _; rewrite !mulmxA -(FD eP cP); congr (_ *m _ *m _).
by rewrite subSS -{1}[h]mul1r -mulrDl -mulrS -subSn.
Qed.

Lemma lin_cov h (L : 'M[R]_d) n : L *m L^T = covm expm A B h ->
  \sum_(i < n) (Fm expm A ((n - i.+1)%:R * h) *m L) *m (Fm expm A ((n - i.+1)%:R * h) *m L)^T
  = covm expm A B (n%:R * h).
Proof.
move=> hL; elim: n => [|n IH]; first by rewrite big_ord0 mul0r (cov0 eP cP).
rewrite big_ord_recl subSS subn0 trmx_mul !mulmxA -[_ *m L *m _]mulmxA hL.
have -> : n.+1%:R * h = n%:R * h + h by rewrite mulrS mulrDl mul1r addrC.
rewrite (covD eP cP); congr (_ + _); rewrite -IH.
by apply: eq_bigr => i _; rewrite lift0 subSS.
Qed.

Lemma sim_lti dt k t : (0 < k)%N ->
  posdef (discretise_lti_sde expm A B (dt / k%:R)).2 ->
  exists2 Cs : nat -> 'M[R]_d,
    \sum_(i < t.+1 * k) Cs i *m (Cs i)^T = (discretise_lti_sde expm A B (t.+1%:R * dt)).2
    & forall (Key : Type) (split : Key -> Key * Key) normal x0 T key,
      normal_shape normal -> (t < T)%N ->
      nth 0 (simulate_sde chol split normal
               (fun x h => let (F, cov) := discretise_lti_sde expm A B h in (F *m x, cov))
               x0 dt T key false k) t
      = (discretise_lti_sde expm A B (t.+1%:R * dt)).1 *m x0
        + \sum_(i < t.+1 * k) Cs i *m
            nth 0 (nth [::] (normal (split key).1 T k d) (i %/ k)) (i %% k).
Proof.
move=> k0 pd0; set h := dt / k%:R.
have pd : posdef (covm expm A B h) by have := pd0; rewrite (ltiE eP cP).
set L := chol (covm expm A B h).
have hL : L *m L^T = covm expm A B h by case: (lP pd).
have kh : (t.+1 * k)%:R * h = t.+1%:R * dt.
  by rewrite natrM /h -mulrA [_%:R * (dt / _)]mulrCA divff ?mulr1 // pnatr_eq0 -lt0n.
exists (fun i => Fm expm A ((t.+1 * k - i.+1)%:R * h) *m L); first by rewrite lin_cov // kh (ltiE eP cP).
move=> Key split normal x0 T key hn ht.
pose eps i := nth 0 (nth [::] (normal (split key).1 T k d) (i %/ k)) (i %% k) : 'cV[R]_d.
pose fix path i := if i is i'.+1 then Fm expm A h *m path i' + L *m eps i' else x0.
rewrite (@sim_path _ _ _ _ _ x0 dt T key false k path) //; last first.
  move=> u j hu hj; rewrite /integration_body (ltiE eP cP) -/h -/L.
  rewrite [path _.+1]/= /eps divnMDl // divn_small // addn0 modnMDl modn_small //.
by rewrite (@lin_path h L path eps) // kh (ltiE eP cP).
Qed.
End Lin.
End Sim.
