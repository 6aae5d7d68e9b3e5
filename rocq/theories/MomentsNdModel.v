(* Model of the multivariate normal and uniform moments and of the conditional moments of
   discretised SDEs (mfs/multi_dims/moments.py), and of GaussianSumND.new
   (mfs/utils.py, lines 77-125). *)
From mathcomp Require Import all_ssreflect all_algebra.
From Verif Require Import Prelude NdIndexModel.
Set Implicit Arguments.
Unset Strict Implicit.
Unset Printing Implicit Defensive.
Import Order.TTheory GRing.Theory Num.Theory.
Local Open Scope ring_scope.

Section MomentsNd.
Variables (R : rcfType) (d : nat).
Implicit Types (cov : 'M[R]_d) (mean : 'cV[R]_d) (multi_index v : seq nat).

(* lines 93, 139: tuple(range(sn + 1)) for sn in multi_index *)
Definition kan_ranges multi_index : seq (seq nat) := [seq iota 0 sn.+1 | sn <- multi_index].

(* lines 96, 144: one row of np.asarray(multi_index) / 2 - vs *)
Definition kan_h multi_index v : 'cV[R]_d :=
  \col_i ((nth 0%N multi_index i)%:R / 2%:R - (nth 0%N v i)%:R).

(* lines 98, 146: (-1) ** np.sum(vs, axis=1) *)
Definition kan_sign v : R := (-1) ^+ sumn v.

(* lines 99, 147: np.prod(scipy_comb(np.asarray(multi_index), vs), axis=1) *)
Definition kan_comb multi_index v : R :=
  jprod [seq ('C(nth 0%N multi_index i, nth 0%N v i))%:R | i <- iota 0 (size multi_index)].

(* lines 100, 148-149: hs[:, None, :] @ cov @ hs[:, :, None] / 2 *)
Definition kan_quad cov (h : 'cV[R]_d) : R := (h^T *m cov *m h) 0 0 / 2%:R.

(* lines 66-108; for odd order the code also evaluates, and discards, half-integer powers *)
Definition central_moments_mvn_kan cov multi_index : R :=
  let s := sumn multi_index in
  let vs := itertools_product (kan_ranges multi_index) in
  if odd s then 0
  else jsum [seq kan_sign v * kan_comb multi_index v * kan_quad cov (kan_h multi_index v) ^+ s./2
            | v <- vs] / (s./2`!)%:R.

(* lines 111-154; the last entry of each row of the product is r *)
Definition raw_moments_mvn_kan mean cov multi_index : R :=
  let s := sumn multi_index in
  let vs_and_r := itertools_product (kan_ranges multi_index ++ [:: iota 0 (s./2).+1]) in
  jsum [seq (let v := take (size vr).-1 vr in
             let r := last 0%N vr in
             let h := kan_h multi_index v in
             kan_sign v * kan_comb multi_index v *
             (kan_quad cov h ^+ r * (h^T *m mean) 0 0 ^+ (s - 2 * r)
              / ((r`!)%:R * ((s - 2 * r)`!)%:R)))
       | vr <- vs_and_r].

(* lines 157-181 *)
Definition moments_nd_uniform (bounds : seq (R * R)) multi_index (means : option (seq R)) : R :=
  let means := if means is Some m then m else nseq (size bounds) 0 in
  jprod [seq (let: (power, bound, mean) := t in
              ((bound.2 - mean) ^+ power.+1 - (bound.1 - mean) ^+ power.+1)
              / power.+1%:R / (bound.2 - bound.1))
        | t <- zip (zip multi_index bounds) means].

(* ---- conditional moments of a normal transition ----
   Lines 257-337 and 340-411 share one body, given the conditional mean and covariance at
   a state. A state is the list of its coordinates. *)
Definition cvec (x : seq R) : 'cV[R]_d := \col_i nth 0 x i.

Section CondNormal.
Variables (mc : 'cV[R]_d -> 'cV[R]_d * 'M[R]_d) (multi_indices : seq (seq nat)).

(* lines 294-301 and 376-382; rms[index] *)
Definition nd_cond_raw (x : seq R) (index : nat) : R :=
  let (cond_mean, cond_cov) := mc (cvec x) in
  jget 0 [seq raw_moments_mvn_kan cond_mean cond_cov k | k <- multi_indices] index.

(* lines 303-315 and 384-390 *)
Definition nd_cond_central (x : seq R) (index : nat) (mean : seq R) : R :=
  let (cond_mean, cond_cov) := mc (cvec x) in
  jget 0 [seq raw_moments_mvn_kan (cond_mean - cvec mean) cond_cov k | k <- multi_indices] index.

(* lines 317-325 and 392-399: s = jnp.prod(scale ** multi_indices_jax[index]) *)
Definition nd_cond_scaled (x : seq R) (index : nat) (mean scale : seq R) : R :=
  let (cond_mean, cond_cov) := mc (cvec x) in
  let k := jget [::] multi_indices index in
  let s := jprod [seq nth 1 scale i ^+ nth 0%N k i | i <- iota 0 d] in
  jget 0 [seq raw_moments_mvn_kan (cond_mean - cvec mean) cond_cov k | k <- multi_indices] index / s.

(* lines 331-334 and 405-408; the mean function of lines 401-403 is
   tme.expectation of the identity, see nd_tme_cond_mean. *)
Definition nd_cond_mean_var (x : seq R) : seq R * seq R :=
  let (cond_mean, cond_cov) := mc (cvec x) in
  ([seq cond_mean i 0 | i <- enum 'I_d], [seq cond_cov i i | i <- enum 'I_d]).
End CondNormal.

(* lines 297-298, 329, 333-334: the Euler--Maruyama mean and covariance. The mean and
   variance function computes the diagonal of the same product. *)
Definition nd_euler_mean_cov w (drift : 'cV[R]_d -> 'cV[R]_d) (dispersion : 'cV[R]_d -> 'M[R]_(d, w))
    (dt : R) (x : 'cV[R]_d) : 'cV[R]_d * 'M[R]_d :=
  (x + dt *: drift x, dt *: (dispersion x *m (dispersion x)^T)).

(* lines 327-329 *)
Definition nd_euler_cond_mean (drift : 'cV[R]_d -> 'cV[R]_d) (dt : R) (x : seq R) : seq R :=
  [seq (cvec x + dt *: drift (cvec x)) i 0 | i <- enum 'I_d].

(* ---- lines 414-479; tme_expectation phi x stands for
   tme.expectation(phi, x, dt, drift, dispersion, order=tme_order). ---- *)
Section CondTme.
Variable tme_expectation : ('cV[R]_d -> R) -> 'cV[R]_d -> R.
Definition nd_tme_cond_raw (x : seq R) multi_index : R :=
  tme_expectation (fun u => jprod [seq u i 0 ^+ nth 0%N multi_index i | i <- enum 'I_d]) (cvec x).
Definition nd_tme_cond_central (x : seq R) multi_index (mean : seq R) : R :=
  tme_expectation (fun u => jprod [seq (u i 0 - nth 0 mean i) ^+ nth 0%N multi_index i
                                  | i : 'I_d <- enum 'I_d]) (cvec x).
Definition nd_tme_cond_scaled (x : seq R) multi_index (mean scale : seq R) : R :=
  tme_expectation (fun u => jprod [seq ((u i 0 - nth 0 mean i) / nth 1 scale i) ^+ nth 0%N multi_index i
                                  | i : 'I_d <- enum 'I_d]) (cvec x).
(* lines 469-471: the identity function is integrated componentwise *)
Definition nd_tme_cond_mean (x : seq R) : seq R :=
  [seq tme_expectation (fun u => u i 0) (cvec x) | i <- enum 'I_d].
End CondTme.

(* ---- mfs/utils.py, lines 105-125 ---- *)
Record gaussian_sum_nd := GaussianSumND {
  gsn_mean : 'cV[R]_d; gsn_cov : 'M[R]_d; gsn_rms : seq R; gsn_cms : seq R }.

Definition gaussian_sum_nd_new (means : seq 'cV[R]_d) (covs : seq 'M[R]_d) (weights : seq R)
    (multi_indices : seq (seq nat)) : gaussian_sum_nd :=
  let comps := zip (zip means covs) weights in
  let centre := \sum_(c <- comps) c.2 *: c.1.1 in
  let cov := \sum_(c <- comps) c.2 *: (c.1.2 + c.1.1 *m c.1.1^T) - centre *m centre^T in
  let rms := [seq jsum [seq raw_moments_mvn_kan c.1.1 c.1.2 k * c.2 | c <- comps] | k <- multi_indices] in
  let cms := [seq jsum [seq raw_moments_mvn_kan (c.1.1 - centre) c.1.2 k * c.2 | c <- comps]
             | k <- multi_indices] in
  GaussianSumND centre cov rms cms.
End MomentsNd.
