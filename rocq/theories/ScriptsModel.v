(* Model of the loops around the experiments: the run numbers handed out by dardel/run_*.sh, the
   simulation loops of dardel/prey_predator and dardel/time_profile, the names of the result files,
   and the selection of results in reproduce_paper_plots. *)
From Coq Require Import String Ascii Decimal DecimalString DecimalNat.
From mathcomp Require Import all_ssreflect all_algebra.
Set Implicit Arguments.
Unset Strict Implicit.
Unset Printing Implicit Defensive.
Import Order.TTheory GRing.Theory Num.Theory.

(* ---- run numbers ---- *)
(* dardel/run_parameter_estimation_mf.sh:24-38 (also run_parameter_estimation_ghf_ekf.sh,
   run_benes_bernoulli_brute_force.sh:24-37, run_benes_bernoulli_ghf_pf.sh:30-47 and
   run_convergence_pf.sh): the values of k in the order the runs are started *)
Definition batch_ids (parallel_max sequential_max : nat) : seq nat :=
  [seq (i * parallel_max + j)%N | i <- iota 0 sequential_max, j <- iota 0 parallel_max].
Definition batch_maxmc (parallel_max sequential_max : nat) : nat := (parallel_max * sequential_max)%N.

(* Python's range(a, b) *)
Definition py_range (a b : nat) : seq nat := iota a (b - a).
(* run_prey_predator_mf.sh:25-27 (also _mf_gpu.sh:28-30 and _pf.sh:25-27); the shell computes in
   integers, the natural numbers agree with it when sequential_runs > 0 *)
Definition st_mc (task sequential_runs : nat) : nat := (task * sequential_runs)%N.
Definition ed_mc (task sequential_runs : nat) : nat := (st_mc task sequential_runs + sequential_runs - 1)%N.
(* prey_predator/mf.py:68, pf.py:57: the runs of one task of the SLURM array *)
Definition task_ids (sequential_runs task : nat) : seq nat :=
  py_range (st_mc task sequential_runs) (ed_mc task sequential_runs + 1).
(* "#SBATCH -a 0-99": all tasks 0..last *)
Definition array_ids (sequential_runs last_task : nat) : seq nat :=
  flatten [seq task_ids sequential_runs t | t <- iota 0 last_task.+1].
(* run_parameter_estimation_pf.sh:5,25-34 (and _pf_cr.sh) *)
Definition pf_array_ids (parallel_max last_task : nat) : seq nat :=
  flatten [seq [seq (t * parallel_max + j)%N | j <- iota 0 parallel_max] | t <- iota 0 last_task.+1].
(* the runs a script or a plot with the loop "for k in range(num_mcs)" reads *)
Definition read_ids (num_mcs : nat) : seq nat := py_range 0 num_mcs.

(* ---- outcomes ---- *)
(* the outcome of a script: a value, an IndexError, or no end within the given number of
   iterations of the while loops *)
Inductive outcome (T : Type) := Ret of T | IndexError | Running.
Arguments IndexError {T}.
Arguments Running {T}.

(* NumPy indexing of an array of length n with an integer *)
Definition np_index (n : nat) (i : int) : option nat :=
  match i with
  | Posz k => if (k < n)%N then Some k else None
  | Negz k => if (k < n)%N then Some (n - k.+1)%N else None
  end.
Definition np_get (T : Type) (s : seq T) (i : int) : option T :=
  if np_index (size s) i is Some k then ohead (drop k s) else None.

(* ---- floats with NaN: None is NaN ---- *)
Section Nan.
Variable R : rcfType.
Local Open Scope ring_scope.
Definition isnan (x : option R) : bool := ~~ isSome x.
Definition nan_abs_sub (x y : option R) : option R :=
  if (x, y) is (Some a, Some b) then Some `|a - b| else None.
(* np.any(np.isnan(a)) for a row and for a matrix *)
Definition any_nan (s : seq (option R)) : bool := has isnan s.
Definition any_nan2 (s : seq (seq (option R))) : bool := has any_nan s.
(* np.abs(a - b) *)
Definition nan_errs (a b : seq (seq (option R))) : seq (seq (option R)) :=
  [seq [seq nan_abs_sub t.1 t.2 | t <- zip r.1 r.2] | r <- zip a b].
End Nan.

(* ---- prey_predator/{mf,pf,ghf_ekf}.py ---- *)
Section PreyPredator.
Variables (R : rcfType) (K Y : Type).
Variable split1 : K -> K.                               (* jax.random.split(key)[0] *)
Variable simulate : K -> seq (seq (option R)) * Y.      (* (xs, ys) of simulate(key) *)
Variable keys : seq K.                                  (* rng_keys.npy *)

(* mf.py:75-79, pf.py:64-68, ghf_ekf.py:71-75: the key the loop ends with, and its data *)
Fixpoint pp_simulate (fuel : nat) (key : K) : outcome (K * (seq (seq (option R)) * Y)) :=
  let d := simulate key in
  if any_nan2 d.1 then
    if fuel is f.+1 then pp_simulate f (split1 key) else Running
  else Ret (key, d).

(* one run: the key of line mf.py:72, pf.py:61, ghf_ekf.py:68, then the loop, then the errors *)
Definition pp_run (T : Type) (errs : K -> seq (seq (option R)) -> Y -> T) (fuel k : nat) : outcome T :=
  if np_get keys (Posz k) is Some key then
    match pp_simulate fuel key with
    | Ret d => Ret (errs d.1 d.2.1 d.2.2)
    | IndexError => IndexError
    | Running => Running
    end
  else IndexError.

(* mf.py:81-92; the means of the moment filter are those of DardelModel (C99) *)
Definition pp_mf (means : Y -> seq (seq (option R))) :=
  pp_run (fun _ xs ys => nan_errs xs (means ys)).
(* pf.py:70-77; bf is the bootstrap filter followed by the mean over the particles *)
Definition pp_pf (bf_means : Y -> K -> seq (seq (option R))) :=
  pp_run (fun key xs ys => nan_errs xs (bf_means ys (split1 key))).
(* ghf_ekf.py:77-86: the pair (errs_ghf, errs_ekf) *)
Definition pp_ghf_ekf (ghf ekf : Y -> seq (seq (option R))) :=
  pp_run (fun _ xs ys => (nan_errs xs (ghf ys), nan_errs xs (ekf ys))).
End PreyPredator.

(* ---- time_profile ---- *)
Section TimeProfile.
Variables (K Y : Type).
Variable split1 : K -> K.
Variable simulator : K -> Y.       (* mf.py:68-74; in ghf.py:59-64 and pf.py:54-59 inline *)
Variable nan_result : Y -> bool.   (* np.any(np.isnan(moment_filter(ys))) *)
Variable keys : seq K.

(* range(-1, maxmc) *)
Definition tp_range (maxmc : nat) : seq int := Negz 0 :: [seq Posz k | k <- iota 0 maxmc].

(* mf.py:94-104: key_nan and the data of the call that was timed last *)
Fixpoint tp_while (fuel : nat) (key_nan : K) (ys : Y) : outcome (K * Y) :=
  if nan_result ys then
    if fuel is f.+1 then
      let key_nan := split1 key_nan in tp_while f key_nan (simulator key_nan)
    else Running
  else Ret (key_nan, ys).

(* the measured time itself is not determined by the program; elapsed_times[k] is represented by
   the data whose filtering was timed, and None is the initial value of np.zeros *)
Definition tp_mf_step (fuel : nat) (st : outcome (K * seq (option Y))) (k : int) :
    outcome (K * seq (option Y)) :=
  match st with
  | Ret (key_nan, times) =>
      if np_get keys k is Some key then
        let ys := simulator key in
        if k is Posz k' then
          match tp_while fuel key_nan ys with
          | Ret (key_nan, ys) => Ret (key_nan, set_nth None times k' (Some ys))
          | IndexError => IndexError
          | Running => Running
          end
        else Ret (key_nan, times)
      else IndexError
  | IndexError => IndexError
  | Running => Running
  end.
(* mf.py:78-106 *)
Definition tp_mf (fuel maxmc : nat) : outcome (K * seq (option Y)) :=
  if np_get keys (Negz 0) is Some key_nan then
    foldl (tp_mf_step fuel) (Ret (key_nan, nseq maxmc None)) (tp_range maxmc)
  else IndexError.

(* ghf.py:51-75 and pf.py:47-71: no loop; the times of the runs *)
Definition tp_plain_step (st : outcome (seq (option Y))) (k : int) : outcome (seq (option Y)) :=
  match st with
  | Ret times =>
      if np_get keys k is Some key then
        let ys := simulator key in
        if k is Posz k' then Ret (set_nth None times k' (Some ys)) else Ret times
      else IndexError
  | IndexError => IndexError
  | Running => Running
  end.
Definition tp_plain (maxmc : nat) : outcome (seq (option Y)) :=
  foldl tp_plain_step (Ret (nseq maxmc None)) (tp_range maxmc).
End TimeProfile.

(* ---- names of the result files, relative to dardel/results ---- *)
Section Names.
Local Open Scope string_scope.
(* {n} in an f-string for a natural number n *)
Definition dec (n : nat) : string := NilEmpty.string_of_uint (Nat.to_uint n).

(* benes_bernoulli/mf.py:38-47, compute_errs.py:28-31, post_processing_mf.py:24-27 *)
Definition suffix_t (normal : bool) : string := if normal then "_normal" else "".
(* benes_bernoulli/mf.py:83; compute_errs.py:73 and post_processing_mf.py:44 read the same name *)
Definition bb_mf_file (mode : string) (normal : bool) (N k : nat) : string :=
  "benes_bernoulli_mf/" ++ mode ++ suffix_t normal ++ "_N_" ++ dec N ++ "_mc_" ++ dec k ++ ".npz".
(* post_processing_mf.py:65; np.savez appends the extension *)
Definition bb_mf_packed (b m : nat) (mode : string) (normal : bool) (N : nat) : string :=
  "benes_bernoulli_mf/b_" ++ dec b ++ "_m_" ++ dec m ++ "_" ++ mode ++ suffix_t normal ++ "_" ++ dec N ++ ".npz".
(* compute_errs.py:115, plot_benes_bernoulli_errs_and_times.py:20 *)
Definition bb_errs_file (b m : nat) (mode : string) (normal : bool) (N : nat) : string :=
  "benes_bernoulli_errs/errs_b_" ++ dec b ++ "_m_" ++ dec m ++ "_" ++ mode ++ suffix_t normal ++ "_N_" ++ dec N ++ ".npz".
(* benes_bernoulli/pf.py:74 and post_processing_pf.py:35; the number of particles and the order of
   the TME expansion are not in the name *)
Definition bb_pf_file (nparticles tme b m k : nat) : string :=
  "benes_bernoulli_pf/b_" ++ dec b ++ "_m_" ++ dec m ++ "_mc_" ++ dec k ++ ".npz".
(* post_processing_pf.py:42, compute_errs.py:58 *)
Definition bb_pf_packed (b m : nat) : string :=
  "benes_bernoulli_pf/b_" ++ dec b ++ "_m_" ++ dec m ++ ".npz".
(* run_benes_bernoulli_ghf_pf.sh:50,64: rm ./results/benes_bernoulli_pf/b_2_m_2000_mc_* *)
Definition bb_pf_glob (b m : nat) : string := "benes_bernoulli_pf/b_" ++ dec b ++ "_m_" ++ dec m ++ "_mc_".
(* benes_bernoulli/brute_force.py:79, post_processing_brute_force.py:43 *)
Definition bb_bf_file (ngrids rule nintegrations : nat) (method : string) (k : nat) : string :=
  "benes_bernoulli_brute_force/mc_" ++ dec k ++ ".npz".
(* post_processing_brute_force.py:53, compute_errs.py:39 *)
Definition bb_bf_packed (b m : nat) : string :=
  "benes_bernoulli_brute_force/b_" ++ dec b ++ "_m_" ++ dec m ++ ".npz".
(* run_benes_bernoulli_brute_force.sh:44 *)
Definition bb_bf_glob : string := "benes_bernoulli_brute_force/mc_".
(* benes_bernoulli/ghf.py:73, compute_errs.py:47 *)
Definition bb_ghf_file (gh tme : nat) : string :=
  "benes_bernoulli_ghf/gh_" ++ dec gh ++ "_tme_" ++ dec tme ++ ".npz".
(* parameter_estimation/pf.py:89 *)
Definition pe_pf_file (nparticles : nat) (cr euler : bool) (k : nat) : string :=
  "parameter_estimation_pf" ++ (if cr then "_cr" else "") ++ "/" ++ (if euler then "euler_" else "")
    ++ "mc_" ++ dec k ++ ".npz".
(* parameter_estimation/ghf_ekf.py:97 and 106 *)
Definition pe_gh_file (gh : nat) (euler : bool) (k : nat) : string :=
  "parameter_estimation_ghf_ekf/gh_" ++ dec gh ++ (if euler then "_euler" else "") ++ "_mc_" ++ dec k ++ ".npz".
Definition pe_ekf_file (euler : bool) (k : nat) : string :=
  "parameter_estimation_ghf_ekf/ekf" ++ (if euler then "_euler" else "") ++ "_mc_" ++ dec k ++ ".npz".
(* parameter_estimation/mf.py:76 *)
Definition pe_mf_file (N : nat) (euler : bool) (k : nat) : string :=
  "parameter_estimation_mf/N_" ++ dec N ++ (if euler then "_euler" else "") ++ "_mc_" ++ dec k ++ ".npz".
(* convergence/convergence_mf.py:168 *)
Definition conv_mf_file (mode : string) (N : nat) : string :=
  "convergence/mf_" ++ mode ++ "_N_" ++ dec N ++ ".npz".
(* convergence/convergence_pf.py:139, convergence_pf_post_processing.py:18 *)
Definition conv_pf_file (nparticles k : nat) : string :=
  "convergence/pf_" ++ dec nparticles ++ "_mc_" ++ dec k ++ ".npz".
(* convergence_pf_post_processing.py:26 *)
Definition conv_pf_packed (nparticles : nat) : string := "convergence/pf_" ++ dec nparticles ++ ".npz".
(* run_convergence_pf.sh: rm ./results/convergence/pf_10000_mc_*, then pf_100000_mc_* *)
Definition conv_pf_glob (nparticles : nat) : string := "convergence/pf_" ++ dec nparticles ++ "_mc_".
(* time_profile/mf.py:79, ghf.py:52, pf.py:48 *)
Definition tp_mf_file (tme : nat) (mode : string) (normal : bool) (N : nat) : string :=
  "times/mf_" ++ mode ++ suffix_t normal ++ "_N_" ++ dec N ++ ".npz".
Definition tp_ghf_file (tme gh : nat) : string := "times/ghf_" ++ dec gh ++ ".npz".
Definition tp_pf_file (tme nparticles : nat) : string := "times/pf_" ++ dec nparticles ++ ".npz".
(* prey_predator/mf.py:82, pf.py:71, ghf_ekf.py:78 *)
Definition pp_mf_file (mode transition : string) (N k : nat) : string :=
  "prey_predator_mf/" ++ mode ++ "_" ++ transition ++ "_N_" ++ dec N ++ "_mc_" ++ dec k ++ ".npz".
Definition pp_pf_file (nparticles : nat) (transition : string) (k : nat) : string :=
  "prey_predator_pf/" ++ transition ++ "_mc_" ++ dec k ++ ".npz".
Definition pp_ghf_ekf_file (gh : nat) (transition : string) (k : nat) : string :=
  "prey_predator_ghf_ekf/" ++ transition ++ "_mc_" ++ dec k ++ ".npz".

(* ---- names read by the plots ---- *)
(* plot_parameter_estimation.py:28,34,51,65,79 with N of line 6 *)
Definition plot_pe_gh (k : nat) : string := "parameter_estimation_ghf_ekf/gh_11_mc_" ++ dec k ++ ".npz".
Definition plot_pe_ekf (k : nat) : string := "parameter_estimation_ghf_ekf/ekf_mc_" ++ dec k ++ ".npz".
Definition plot_pe_mf (k : nat) : string := "parameter_estimation_mf/N_7_mc_" ++ dec k ++ ".npz".
Definition plot_pe_pf (k : nat) : string := "parameter_estimation_pf/mc_" ++ dec k ++ ".npz".
Definition plot_pe_pf_cr (k : nat) : string := "parameter_estimation_pf_cr/mc_" ++ dec k ++ ".npz".
(* plot_benes_bernoulli_errs_and_times.py:48,50,53 *)
Definition plot_times_mf (N : nat) : string := "times/mf_raw_N_" ++ dec N ++ ".npz".
Definition plot_times_ghf : string := "times/ghf_11.npz".
Definition plot_times_pf : string := "times/pf_10000.npz".
(* plot_prey_predator_errs.py:38 with line 9, and 68 with lines 8 and 12 *)
Definition plot_pp_pf (k : nat) : string := "prey_predator_pf/tme_2_mc_" ++ dec k ++ ".npz".
Definition plot_pp_mf (N k : nat) : string := "prey_predator_mf/central_tme_2_N_" ++ dec N ++ "_mc_" ++ dec k ++ ".npz".
(* plot_convergence.py:38 and 65 with lines 8 and 9 *)
Definition plot_conv_mf (N : nat) : string := "convergence/mf_central_N_" ++ dec N ++ ".npz".
Definition plot_conv_pf : string := "convergence/pf.npz".
End Names.

(* ---- selection of the results in the plots ---- *)
Section Selection.
Variable R : rcfType.
Local Open Scope ring_scope.
(* x >= b, false for NaN *)
Definition nan_ge (x : option R) (b : R) : bool := if x is Some v then b <= v else false.
(* plot_parameter_estimation.py:7,10-18; bounds[1] = 10 *)
Definition find_valid (stats : seq bool) (vals : seq (seq (option R))) : nat * seq (seq (option R)) :=
  let num_divergences := count negb stats in
  let vals := mask stats vals in
  let masks := [seq has (fun x => nan_ge x 10%:R) row | row <- vals] in
  let num_divergences := (num_divergences + count id masks)%N in
  (num_divergences, mask [seq ~~ m | m <- masks] vals).

(* plot_benes_bernoulli_errs_and_times.py:11-15 *)
Definition rm_divergent (arr : seq (seq (option R))) : seq (seq (option R)) * nat :=
  let msk := [seq any_nan row | row <- arr] in
  (mask [seq ~~ m | m <- msk] arr, count id msk).

(* one row of compute_errs.py:94-101 *)
Definition err_rows (a b : seq (seq (option R))) : seq (seq (option R)) := nan_errs a b.

(* plot_benes_bernoulli_errs_and_times.py:22-35: the number printed as "MF divergences" (and
   likewise "GHF divergences" and "PF divergences"), from the trajectories, the means of the
   brute-force filter and the means of the filter *)
Definition printed_divergences (trajs true_means means : seq (seq (option R))) : int :=
  let: (_, true_ndivs) := rm_divergent (err_rows trajs true_means) in
  let: (_, ndiv) := rm_divergent (err_rows true_means means) in
  Posz ndiv - Posz true_ndivs.

(* plot_prey_predator_errs.py:43-45 and 72-74: kept runs and the number of the others *)
Definition pp_kept (errs : seq (seq (seq (option R)))) : seq (seq (seq (option R))) * nat :=
  let num_nans := [seq any_nan2 e | e <- errs] in
  (mask [seq ~~ m | m <- num_nans] errs, count id num_nans).
(* np.sum(errs, axis=-1) of one run, for a run without NaN *)
Definition pp_sums (e : seq (seq (option R))) : seq R := [seq \sum_(x <- r) odflt 0 x | r <- e].
(* plot_prey_predator_errs.py:46 and 75: the printed mean over the kept runs and the times *)
Definition pp_printed_mean (errs : seq (seq (seq (option R)))) : R :=
  let sums := flatten [seq pp_sums e | e <- (pp_kept errs).1] in
  (\sum_(x <- sums) x) / (size sums)%:R.
End Selection.

(* ---- the files of run_benes_bernoulli_ghf_pf.sh:38-64 and run_convergence_pf.sh ---- *)
Section Files.
(* a directory is the list of its file names *)
Definition file_in (f : string) (fs : seq string) : bool := has (String.eqb f) fs.
(* one block of the script: the runs, the packing script (which fails when one of the files it
   reads is missing), then rm of the files with the given prefix.  IndexError stands for the
   FileNotFoundError of np.load; the shell goes on after it, with nothing packed. *)
Definition pack_block (file : nat -> string) (packed glob : string) (parallel_max sequential_max maxmc : nat)
    (fs : seq string) : outcome (seq string) :=
  let fs := [seq file k | k <- batch_ids parallel_max sequential_max] ++ fs in
  if all (fun k => file_in (file k) fs) (read_ids maxmc) then
    Ret [seq f <- packed :: fs | ~~ String.prefix glob f]
  else IndexError.
(* run_benes_bernoulli_ghf_pf.sh:38-50 and 52-64; post_processing_pf.py is called without --maxmc,
   its default is 1000 *)
Definition bb_pf_block (nparticles tme b m parallel_max sequential_max : nat) :=
  pack_block (bb_pf_file nparticles tme b m) (bb_pf_packed b m) (bb_pf_glob b m) parallel_max sequential_max 1000.
(* run_convergence_pf.sh *)
Definition conv_pf_block (nparticles parallel_max sequential_max : nat) :=
  pack_block (conv_pf_file nparticles) (conv_pf_packed nparticles) (conv_pf_glob nparticles)
    parallel_max sequential_max (batch_maxmc parallel_max sequential_max).
End Files.
