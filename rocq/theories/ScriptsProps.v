(* Properties C113-C122: the loops around the experiments, the result files and the selections
   made by the plots. *)
From Coq Require Import String Ascii List.
From mathcomp Require Import all_ssreflect all_algebra.
From Verif Require Import ScriptsModel ScriptsRuns ScriptsNames ScriptsSelect.
Set Implicit Arguments.
Unset Strict Implicit.
Unset Printing Implicit Defensive.
Import Order.TTheory GRing.Theory Num.Theory.

(* ---------------- C113: every run exactly once ---------------- *)
(* The shell loops start the runs 0, 1, ..., MAXMC - 1 in this order, each once, whatever the
   numbers of parallel and sequential runs; so do the array jobs. *)
Theorem runs_exactly_once (p s : nat) :
  batch_ids p s = read_ids (batch_maxmc p s) /\ forall k, count_mem k (batch_ids p s) = (k < p * s)%N.
Proof.
rewrite read_ids_iota batch_ids_iota; split=> // k.
by rewrite count_uniq_mem ?iota_uniq // mem_iota.
Qed.
Theorem array_runs_exactly_once (runs last : nat) : (0 < runs)%N ->
  array_ids runs last = read_ids (runs * last.+1) /\ pf_array_ids runs last = read_ids (runs * last.+1).
Proof. by move=> r0; rewrite read_ids_iota array_ids_iota // pf_array_ids_iota. Qed.

(* the numbers of the scripts: the runs read by the plots are the runs that were made *)
Example script_runs :
  batch_ids 25 40 = read_ids 1000 /\                            (* run_parameter_estimation_{mf,ghf_ekf}.sh *)
  pf_array_ids 10 99 = read_ids 1000 /\                         (* run_parameter_estimation_pf{,_cr}.sh *)
  forall k, (k \in array_ids 100 99) = (k < 100 * 100)%N.       (* run_prey_predator_{mf,pf}.sh *)
Proof.
split; first by rewrite (runs_exactly_once 25 40).1.
split; first by rewrite (array_runs_exactly_once 99 (isT : 0 < 10)).2.
by move=> k; rewrite (array_runs_exactly_once 99 (isT : 0 < 100)).1 read_ids_iota mem_iota.
Qed.

(* ---------------- C114: the data of the prey-predator runs ---------------- *)
Section PreyPredator.
Variables (R : rcfType) (K Y : Type) (split1 : K -> K) (simulate : K -> seq (seq (option R)) * Y)
  (keys : seq K) (key0 : K).

(* the data of run k: the first data set without NaN along the keys key, split(key)[0],
   split(split(key)[0])[0], ... with key = rng_keys[k] *)
Definition data_of (k : nat) (key : K) (xs : seq (seq (option R))) (ys : Y) : Prop :=
  exists j, [/\ key = iter j split1 (nth key0 keys k), (xs, ys) = simulate key, ~~ any_nan2 xs &
    forall i, (i < j)%N -> any_nan2 (simulate (iter i split1 (nth key0 keys k))).1].

Lemma data_ofE k key xs ys : data_of k key xs ys <-> run_data split1 simulate keys key0 k key xs ys.
Proof.
split=> -[j].
- move=> [-> e nn b]; exists j; split=> //; split=> //.
  by have := congr1 fst e => /= <-.
- move=> [[g b] -> e]; exists j; split=> //.
  by have := congr1 fst e => /= ->.
Qed.

(* all filters of run k are given the same data, and their errors are taken against the same
   trajectory, in whichever script and whenever they run *)
Theorem prey_predator_same_data (means ghf ekf : Y -> seq (seq (option R)))
    (bf : Y -> K -> seq (seq (option R))) f1 f2 f3 k e_mf e_pf e_ghf e_ekf :
  pp_mf split1 simulate keys means f1 k = Ret e_mf ->
  pp_pf split1 simulate keys bf f2 k = Ret e_pf ->
  pp_ghf_ekf split1 simulate keys ghf ekf f3 k = Ret (e_ghf, e_ekf) ->
  exists key xs ys, [/\ data_of k key xs ys,
    e_mf = nan_errs xs (means ys), e_pf = nan_errs xs (bf ys (split1 key)),
    e_ghf = nan_errs xs (ghf ys) & e_ekf = nan_errs xs (ekf ys)].
Proof.
rewrite /pp_mf /pp_pf /pp_ghf_ekf => r1 r2 r3.
have [_ [key [xs [ys [h1 ->]]]]] := pp_runP key0 r1.
have [_ [key2 [xs2 [ys2 [h2 ->]]]]] := pp_runP key0 r2.
have [_ [key3 [xs3 [ys3 [h3 [-> ->]]]]]] := pp_runP key0 r3.
have [<- <- <-] := run_data_uniq h1 h2; have [_ <- <-] := run_data_uniq h1 h3.
by exists key, xs, ys; split=> //; apply/data_ofE.
Qed.

(* a run reported as divergent is one whose filter gave NaN; the simulation is never the reason *)
Theorem prey_predator_divergent (means : Y -> seq (seq (option R))) fuel k e :
  (forall key, same_shape (simulate key).1 (means (simulate key).2)) ->
  pp_mf split1 simulate keys means fuel k = Ret e ->
  exists key xs ys, data_of k key xs ys /\ any_nan2 e = any_nan2 (means ys).
Proof.
rewrite /pp_mf => sh r; have [_ [key [xs [ys [h ->]]]]] := pp_runP key0 r.
exists key, xs, ys; split; first exact/data_ofE.
have [j [_ _ e1]] := h; have := sh key; rewrite -e1 /= => sx.
by rewrite any_nan2_errs // (negbTE (run_data_nan h)).
Qed.

(* the loop ends exactly when a data set without NaN can be reached *)
Theorem prey_predator_terminates (T : Type) (errs : K -> seq (seq (option R)) -> Y -> T) k :
  (k < size keys)%N ->
  (exists fuel e, pp_run split1 simulate keys errs fuel k = Ret e) <->
  (exists j, ~~ any_nan2 (simulate (iter j split1 (nth key0 keys k))).1).
Proof.
move=> ks; split.
- move=> [fuel [e r]]; have [_ [key [xs [ys [[j [[g _] _ _]] _]]]]] := pp_runP key0 r.
  by exists j.
- move=> ex; case: (ex_minnP ex) => j g m; exists j.
  have fg : first_good split1 simulate (nth key0 keys k) j.
    split=> // i ij; apply/negPn/negP => gi; by move: (m i gi); rewrite leqNgt ij.
  by eexists; apply: (pp_run_total _ ks fg).
Qed.
End PreyPredator.

(* a simulation that has NaN for the keys 5 and 6 only; run 1 has to skip both *)
Definition toy_simulate (R : rcfType) (key : nat) : seq (seq (option R)) * nat :=
  ([:: [:: if (key == 5) || (key == 6) then None else Some (key%:R)%R]], key).
Example prey_predator_toy (R : rcfType) :
  let errs_of f := pp_mf succn (@toy_simulate R) [:: 3; 5] (fun ys => [:: [:: Some (ys%:R + 1)%R]]) f in
  errs_of 0%N 0%N = Ret [:: [:: Some `|3%:R - (3%:R + 1)|%R]] /\
  errs_of 2%N 1%N = Ret [:: [:: Some `|7%:R - (7%:R + 1)|%R]] /\
  errs_of 1%N 1%N = Running /\ errs_of 5%N 2%N = IndexError.
Proof. by []. Qed.

(* ---------------- C115: time_profile ---------------- *)
Section TimeProfile.
Variables (K Y : Type) (split1 : K -> K) (simulator : K -> Y) (nan_result : Y -> bool)
  (keys : seq K) (key0 : K).

(* The moment filter is timed once for every run, always on data on which it gives no NaN: on the
   data of the run itself when that is so, and otherwise on the next unused data set of the spare
   sequence, which starts at the last key; c i is the number of spare data sets drawn before run i,
   so no spare data set is used twice. *)
Theorem time_profile_mf fuel maxmc kn times :
  tp_mf split1 simulator nan_result keys fuel maxmc = Ret (kn, times) ->
  size times = maxmc /\ exists c : nat -> nat, forall k, (k < maxmc)%N ->
    exists2 ys, nth None times k = Some ys /\ ~~ nan_result ys &
      let own := simulator (nth key0 keys k) in
      let spare i := simulator (iter i split1 (last key0 keys)) in
      if nan_result own then
        [/\ (c k < c k.+1)%N, ys = spare (c k.+1) & forall i, (c k < i < c k.+1)%N -> nan_result (spare i)]
      else c k.+1 = c k /\ ys = own.
Proof.
move=> /(tp_mfP key0) [_ [c [ys [_ sz -> _ H]]]]; split; first by rewrite size_map.
exists c => k km; have [g h] := H k (simulator key0) km.
exists (nth (simulator key0) ys k); last exact: h.
by rewrite (nth_map (simulator key0)) ?sz.
Qed.

(* the script fails when there are fewer keys than runs, and ends when the filter gives no NaN for
   infinitely many of the spare data sets *)
Theorem time_profile_mf_ends maxmc : keys <> [::] -> (maxmc <= size keys)%N ->
  (forall i, exists j, (i < j)%N && ~~ nan_result (simulator (iter j split1 (last key0 keys)))) ->
  exists fuel kn times, tp_mf split1 simulator nan_result keys fuel maxmc = Ret (kn, times).
Proof.
move=> k0 ks sp; have [f H] := @tp_mf_total K Y split1 simulator nan_result keys key0 maxmc k0 ks sp.
by exists f; have [kn [times h]] := H f (leqnn f); exists kn, times.
Qed.
Theorem time_profile_mf_keys fuel maxmc r :
  tp_mf split1 simulator nan_result keys fuel maxmc = Ret r -> (maxmc <= size keys)%N.
Proof. by case: r => kn times /(tp_mfP key0) [_ [c [ys []]]]. Qed.

(* the other filters are timed on the data of the runs, and the moment filter is timed on the same
   data when it diverges on none of them *)
Theorem time_profile_plain maxmc : keys <> [::] -> (maxmc <= size keys)%N ->
  tp_plain simulator keys maxmc = Ret [seq Some (simulator (nth key0 keys k)) | k <- iota 0 maxmc].
Proof. exact: tp_plainE. Qed.
Theorem time_profile_same_data fuel maxmc kn times :
  tp_mf split1 simulator nan_result keys fuel maxmc = Ret (kn, times) ->
  (forall k, (k < maxmc)%N -> ~~ nan_result (simulator (nth key0 keys k))) ->
  tp_plain simulator keys maxmc = Ret times.
Proof.
move=> /(tp_mfP key0) [k0 [c [ys [_ sz -> ks H]]]] good; rewrite (tp_plainE simulator key0) //; congr Ret.
apply: (@eq_from_nth _ None); rewrite !size_map size_iota // => k km.
rewrite (nth_map 0%N) ?size_iota // nth_iota // add0n (nth_map (simulator key0)) ?sz //; congr Some.
by have [_] := H k (simulator key0) km; rewrite /= (negbTE (good k km)) => -[].
Qed.
End TimeProfile.

(* keys 4 and 9 give NaN; run 1 uses 10, the first good key after 8 *)
Example time_profile_toy :
  tp_mf succn id (fun y => (y == 4) || (y == 9)) [:: 3; 4; 5; 4; 8] 2 4 =
    Ret (11, [:: Some 3; Some 10; Some 5; Some 11]) /\
  tp_mf succn id (fun y => (y == 4) || (y == 9)) [:: 3; 4; 5; 4; 8] 1 4 = Running /\
  tp_mf succn id (fun y => (y == 4) || (y == 9)) [:: 3; 4; 5; 4; 8] 2 6 = IndexError /\
  tp_plain id [:: 3; 4; 5; 4; 8] 4 = Ret [:: Some 3; Some 4; Some 5; Some 4].
Proof. by []. Qed.

(* ---------------- C116: the three filters are timed on the same data ---------------- *)
(* False: with a divergent run the moment filter is timed on other data than the other filters *)
Theorem time_profile_same_data_refuted :
  exists (keys : seq nat) (nan_result : pred nat) fuel maxmc kn times,
    tp_mf succn id nan_result keys fuel maxmc = Ret (kn, times) /\
    tp_plain id keys maxmc <> Ret times.
Proof. by exists [:: 3; 4; 8], (pred1 4), 1, 2, 9, [:: Some 3; Some 9]. Qed.

(* ---------------- C117: distinct experiments, distinct files ---------------- *)
Theorem names_benes_bernoulli m t N k m' t' N' k' b b' q q' n tme n' tme' :
  moment_mode m -> moment_mode m' ->
  (bb_mf_file m t N k = bb_mf_file m' t' N' k' -> [/\ m = m', t = t', N = N' & k = k']) /\
  (bb_errs_file b q m t N = bb_errs_file b' q' m' t' N' -> [/\ b = b', q = q', m = m', t = t' & N = N']) /\
  (bb_mf_packed b q m t N = bb_mf_packed b' q' m' t' N' -> [/\ b = b', q = q', m = m', t = t' & N = N']) /\
  (bb_pf_file n tme b q k = bb_pf_file n' tme' b' q' k' -> [/\ b = b', q = q' & k = k']) /\
  (bb_pf_packed b q = bb_pf_packed b' q' -> b = b' /\ q = q') /\
  (bb_bf_packed b q = bb_bf_packed b' q' -> b = b' /\ q = q') /\
  (bb_ghf_file N k = bb_ghf_file N' k' -> N = N' /\ k = k').
Proof.
move=> hm hm'.
split; first exact: bb_mf_file_inj.
split; first exact: bb_errs_file_inj.
split; first exact: bb_mf_packed_inj.
split; first exact: bb_pf_file_inj.
split; first exact: bb_pf_packed_inj.
split; first exact: bb_bf_packed_inj.
exact: bb_ghf_file_inj.
Qed.
Theorem names_parameter_estimation n cr e k n' cr' e' k' :
  (pe_pf_file n cr e k = pe_pf_file n' cr' e' k' -> [/\ cr = cr', e = e' & k = k']) /\
  (pe_gh_file n e k = pe_gh_file n' e' k' -> [/\ n = n', e = e' & k = k']) /\
  (pe_mf_file n e k = pe_mf_file n' e' k' -> [/\ n = n', e = e' & k = k']) /\
  (pe_ekf_file e k = pe_ekf_file e' k' -> e = e' /\ k = k') /\
  pe_gh_file n e k <> pe_ekf_file e' k'.
Proof.
split; first exact: pe_pf_file_inj.
split; first exact: pe_gh_file_inj.
split; first exact: pe_mf_file_inj.
split; first exact: pe_ekf_file_inj.
exact: pe_gh_ekf_disjoint.
Qed.
Theorem names_convergence_and_times m t N m' t' N' n k n' k' tme tme' :
  moment_mode m -> moment_mode m' ->
  (conv_mf_file m N = conv_mf_file m' N' -> m = m' /\ N = N') /\
  (conv_pf_file n k = conv_pf_file n' k' -> n = n' /\ k = k') /\
  (conv_pf_packed n = conv_pf_packed n' -> n = n') /\
  (tp_mf_file tme m t N = tp_mf_file tme' m' t' N' -> [/\ m = m', t = t' & N = N']).
Proof.
move=> hm hm'.
split; first exact: conv_mf_file_inj.
split; first exact: conv_pf_file_inj.
split; first exact: conv_pf_packed_inj.
exact: tp_mf_file_inj.
Qed.
(* for any name of the transition approximation, even one with digits and underscores *)
Theorem names_prey_predator m tr N k m' tr' N' k' n n' :
  moment_mode m -> moment_mode m' ->
  (pp_mf_file m tr N k = pp_mf_file m' tr' N' k' -> [/\ m = m', tr = tr', N = N' & k = k']) /\
  (pp_pf_file n tr k = pp_pf_file n' tr' k' -> tr = tr' /\ k = k') /\
  (pp_ghf_ekf_file n tr k = pp_ghf_ekf_file n' tr' k' -> tr = tr' /\ k = k').
Proof.
move=> hm hm'.
split; first exact: pp_mf_file_inj.
split; first exact: pp_pf_file_inj.
exact: pp_ghf_ekf_file_inj.
Qed.
Example names_example :
  pp_mf_file "central" "tme_normal_2" 5 120 = "prey_predator_mf/central_tme_normal_2_N_5_mc_120.npz"%string /\
  moment_mode "central" /\ bb_pf_file 10000 3 2 2000 7 = "benes_bernoulli_pf/b_2_m_2000_mc_7.npz"%string.
Proof. by split=> //; split=> //; right; left. Qed.

(* ---------------- C118: the settings an experiment depends on are in its file name ---------------- *)
(* False: the order of the TME expansion, the number of particles, the Gauss-Hermite order and the
   grid of the brute-force filter are options of the scripts, but not part of the names, so a second
   experiment overwrites the first. *)
Theorem names_settings_refuted :
  (exists tme tme', tme <> tme' /\ forall m t N, tp_mf_file tme m t N = tp_mf_file tme' m t N) /\
  (exists tme tme', tme <> tme' /\ forall gh, tp_ghf_file tme gh = tp_ghf_file tme' gh) /\
  (exists tme tme', tme <> tme' /\ forall n, tp_pf_file tme n = tp_pf_file tme' n) /\
  (exists n n', n <> n' /\ forall tr k, pp_pf_file n tr k = pp_pf_file n' tr k) /\
  (exists gh gh', gh <> gh' /\ forall tr k, pp_ghf_ekf_file gh tr k = pp_ghf_ekf_file gh' tr k) /\
  (exists n n', n <> n' /\ forall cr e k, pe_pf_file n cr e k = pe_pf_file n' cr e k) /\
  (exists n n', n <> n' /\ forall tme b m k, bb_pf_file n tme b m k = bb_pf_file n' tme b m k) /\
  (exists g g', g <> g' /\ forall r i me k, bb_bf_file g r i me k = bb_bf_file g' r i me k).
Proof. by do ![split]; exists 2, 3. Qed.

(* ---------------- C119: packing and deleting ---------------- *)
(* One block of run_benes_bernoulli_ghf_pf.sh packs all runs and deletes exactly the files of its
   own runs: the files of other settings and all packed files stay. *)
Theorem pack_benes_bernoulli n tme b m p s fs : (1000 <= p * s)%N ->
  exists fs', bb_pf_block n tme b m p s fs = Ret fs' /\ In (bb_pf_packed b m) fs' /\
    (forall b' m', In (bb_pf_packed b' m') fs -> In (bb_pf_packed b' m') fs') /\
    (forall n' tme' b' m' k, In (bb_pf_file n' tme' b' m' k) fs' <->
       In (bb_pf_file n' tme' b' m' k) fs /\ ~ (b' = b /\ m' = m)).
Proof.
move=> h; eexists; split; first exact: bb_pf_block_ok.
have inF f : In f [seq f <- fs | ~~ String.prefix (bb_pf_glob b m) f] <-> In f fs /\ ~~ String.prefix (bb_pf_glob b m) f.
  exact: filter_In.
split; first by left.
split.
- by move=> b' m' hin; right; apply/inF; split=> //; exact: bb_pf_glob_packed.
- move=> n' tme' b' m' k /=; split.
  + move=> [e|/inF [hin ng]].
      exfalso; have := bb_pf_glob_packed b m b' m'; rewrite e.
      by have /bb_pf_globP -> : b' = b' /\ m' = m' by [].
    by split=> // /bb_pf_globP g; rewrite g in ng.
  + by move=> [hin ng]; right; apply/inF; split=> //; apply/negP => /bb_pf_globP.
Qed.
(* with fewer than the 1000 runs post_processing_pf.py expects by default, the packing fails; the
   script then deletes the runs all the same *)
Theorem pack_benes_bernoulli_missing n tme b m p s :
  (p * s < 1000)%N -> bb_pf_block n tme b m p s [::] = IndexError.
Proof. exact: bb_pf_block_missing. Qed.
Theorem pack_convergence n p s fs :
  exists fs', conv_pf_block n p s fs = Ret fs' /\ In (conv_pf_packed n) fs' /\
    (forall n', In (conv_pf_packed n') fs -> In (conv_pf_packed n') fs') /\
    (forall n' k, In (conv_pf_file n' k) fs' <-> In (conv_pf_file n' k) fs /\ n' <> n).
Proof.
eexists; split; first exact: conv_pf_block_ok.
have inF f : In f [seq f <- fs | ~~ String.prefix (conv_pf_glob n) f] <-> In f fs /\ ~~ String.prefix (conv_pf_glob n) f.
  exact: filter_In.
split; first by left.
split.
- by move=> n' hin; right; apply/inF; split=> //; exact: conv_pf_glob_packed.
- move=> n' k /=; split.
  + move=> [e|/inF [hin ng]].
      exfalso; have := conv_pf_glob_packed n n'; rewrite e.
      by have /conv_pf_globP -> : n' = n' by [].
    by split=> // /(conv_pf_globP n' k n) g; rewrite g in ng.
  + by move=> [hin ng]; right; apply/inF; split=> //; apply/negP => /conv_pf_globP.
Qed.
(* the two blocks of run_benes_bernoulli_ghf_pf.sh in sequence *)
Example pack_both n tme :
  exists fs1, bb_pf_block n tme 2 2000 10 100 [::] = Ret fs1 /\
    bb_pf_block n tme 5 2000 10 100 fs1 = Ret [:: bb_pf_packed 5 2000; bb_pf_packed 2 2000].
Proof.
have h : (1000 <= 10 * 100)%N by rewrite (_ : 10 * 100 = 1000)%N // -[(10 * 100)%N]/(1000)%N.
eexists; split; first exact: bb_pf_block_ok.
by rewrite (@bb_pf_block_ok n tme 5 2000 10 100 _ h).
Qed.

(* ---------------- C120: the plots read the files the scripts write ---------------- *)
(* the names the plots read are names the scripts write *)
Theorem plots_read_written_files :
  (forall k, plot_pe_gh k = pe_gh_file 11 false k) /\
  (forall k, plot_pe_ekf k = pe_ekf_file false k) /\
  (forall k, plot_pe_mf k = pe_mf_file 7 false k) /\
  (forall n k, plot_pe_pf k = pe_pf_file n false false k) /\
  (forall n k, plot_pe_pf_cr k = pe_pf_file n true false k) /\
  (forall tme N, plot_times_mf N = tp_mf_file tme "raw" false N) /\
  (forall tme, plot_times_ghf = tp_ghf_file tme 11) /\
  (forall tme, plot_times_pf = tp_pf_file tme (100 * 100)) /\
  (forall n k, plot_pp_pf k = pp_pf_file n "tme_2" k) /\
  (forall N k, plot_pp_mf N k = pp_mf_file "central" "tme_2" N k) /\
  (forall N, plot_conv_mf N = conv_mf_file "central" N).
Proof. by do ![split]. Qed.
(* except one: plot_convergence.py reads pf.npz, and no run of the scripts writes it *)
Theorem plot_convergence_pf_refuted :
  (forall n, conv_pf_packed n <> plot_conv_pf) /\ (forall n k, conv_pf_file n k <> plot_conv_pf) /\
  (forall mode N, conv_mf_file mode N <> plot_conv_pf).
Proof.
split; [|split].
- by move=> n [].
- by move=> n k [].
- by move=> mode N [].
Qed.

(* ---------------- C121: the results the plots keep ---------------- *)
Section Selection.
Variable R : rcfType.
Local Open Scope ring_scope.
Implicit Types vals arr : seq (seq (option R)).

(* find_valid keeps, in order, the estimates of the runs that converged with every estimate below
   the bound (NaN is not at or above it), and counts the others *)
Theorem find_valid_selects (stats : seq bool) vals : size stats = size vals ->
  (find_valid stats vals).2 =
    [seq t.2 | t <- zip stats vals & t.1 && all (fun x => if x is Some v then v < 10%:R else true) t.2] /\
  ((find_valid stats vals).1 + size (find_valid stats vals).2 = size vals)%N.
Proof.
move=> sz; split; last exact: find_valid_count.
rewrite find_validP //=; congr map; apply: eq_filter => t; rewrite /valid_run -all_predC.
by congr (_ && _); apply: eq_all => -[v|] //=; rewrite -ltNge.
Qed.

(* rm_divergent keeps, in order, the rows without NaN and counts the others *)
Theorem rm_divergent_selects arr :
  (rm_divergent arr).1 = [seq r <- arr | all (fun x => isSome x) r] /\
  ((rm_divergent arr).2 + size (rm_divergent arr).1 = size arr)%N.
Proof.
rewrite rm_divergentP /= size_filter count_predC; split=> //; apply: eq_filter => r.
by rewrite /any_nan -all_predC; apply: eq_all => -[].
Qed.

(* ---------------- C122: the printed numbers ---------------- *)
(* the number printed as divergences of a filter is the number of runs in which the filter has a
   NaN and the brute-force reference has none, when no simulated trajectory has a NaN *)
Theorem printed_divergences_correct (trajs true_means means : seq (seq (option R))) :
  same_shape trajs true_means -> same_shape true_means means -> ~~ any_nan2 trajs ->
  printed_divergences trajs true_means means =
  Posz (count (fun t => ~~ any_nan t.1 && any_nan t.2) (zip true_means means)).
Proof. exact: printed_divergences_clean. Qed.
(* in general it is that number over the runs with a trajectory without NaN, less the number of
   runs with a NaN in the trajectory alone *)
Theorem printed_divergences_general (trajs true_means means : seq (seq (option R))) :
  same_shape trajs true_means -> same_shape true_means means ->
  printed_divergences trajs true_means means =
  Posz (count (fun t => [&& ~~ any_nan t.1, ~~ any_nan t.2.1 & any_nan t.2.2]) (zip trajs (zip true_means means)))
  - Posz (count (fun t => [&& any_nan t.1, ~~ any_nan t.2.1 & ~~ any_nan t.2.2]) (zip trajs (zip true_means means))).
Proof. exact: printed_divergencesE. Qed.
(* so that it can be negative *)
Theorem printed_divergences_refuted :
  exists trajs true_means means : seq (seq (option R)),
    [/\ same_shape trajs true_means, same_shape true_means means &
        printed_divergences trajs true_means means < 0].
Proof. by exists [:: [:: None]], [:: [:: Some 0]], [:: [:: Some 0]]. Qed.

(* C121: plot_prey_predator_errs.py keeps the runs without NaN, separately for each filter *)
Theorem prey_predator_selects (errs : seq (seq (seq (option R)))) :
  (pp_kept errs).1 = [seq e <- errs | all (all (fun x => isSome x)) e] /\
  ((pp_kept errs).2 + size (pp_kept errs).1 = size errs)%N.
Proof.
rewrite pp_keptP /= size_filter count_predC; split=> //; apply: eq_filter => e.
rewrite /any_nan2 -all_predC; apply: eq_all => r.
by rewrite /= /any_nan -all_predC; apply: eq_all => -[].
Qed.
(* C122: because of that the printed means are not comparable: a filter with the smaller error in every
   run in which both converge can have the larger printed mean. *)
Theorem prey_predator_comparison_refuted :
  exists errs_a errs_b : seq (seq (seq (option R))), [/\ size errs_a = size errs_b,
    (forall k, ~~ any_nan2 (nth [::] errs_a k) -> ~~ any_nan2 (nth [::] errs_b k) -> (k < size errs_a)%N ->
       \sum_(x <- pp_sums (nth [::] errs_a k)) x < \sum_(x <- pp_sums (nth [::] errs_b k)) x),
    has (fun e => ~~ any_nan2 e) errs_a &
    pp_printed_mean errs_b < pp_printed_mean errs_a].
Proof.
exists [:: [:: [:: Some 1]]; [:: [:: Some 9%:R]]], [:: [:: [:: Some 2%:R]]; [:: [:: None]]].
split=> //.
- by case=> [|[|k]] //= _ _ _; rewrite /pp_sums /= !big_seq1 /= ltr1n.
- rewrite /pp_printed_mean /pp_kept /pp_sums /= !big_cons !big_nil /= !addr0 divr1.
  rewrite ltr_pdivl_mulr ?ltr0n // -natrM (_ : 1 + 9%:R = 10%:R :> R) ?ltr_nat //.
Qed.
End Selection.

Example selection_toy (R : rcfType) :
  let v : seq (seq (option R)) := [:: [:: Some 1%R]; [:: Some (10%:R)%R]; [:: Some 2%:R%R]] in
  size [:: true; true; false] = size v /\
  (rm_divergent [:: [:: Some (1%R : R)]; [:: Some 2%:R%R; None]]) = ([:: [:: Some 1%R]], 1%N) /\
  find_valid [:: true; true; false] v = (2, [:: [:: Some 1%R]]).
Proof.
split=> //; split=> //; rewrite find_validP //= /valid_run /= lexx.
by rewrite orbF -[1%R]/(1%:R)%R ler_nat.
Qed.

Print Assumptions runs_exactly_once.
Print Assumptions array_runs_exactly_once.
Print Assumptions prey_predator_same_data.
Print Assumptions prey_predator_divergent.
Print Assumptions prey_predator_terminates.
Print Assumptions time_profile_mf.
Print Assumptions time_profile_mf_ends.
Print Assumptions time_profile_same_data.
Print Assumptions time_profile_same_data_refuted.
Print Assumptions names_benes_bernoulli.
Print Assumptions names_parameter_estimation.
Print Assumptions names_convergence_and_times.
Print Assumptions names_prey_predator.
Print Assumptions names_settings_refuted.
Print Assumptions pack_benes_bernoulli.
Print Assumptions pack_convergence.
Print Assumptions plots_read_written_files.
Print Assumptions plot_convergence_pf_refuted.
Print Assumptions find_valid_selects.
Print Assumptions rm_divergent_selects.
Print Assumptions printed_divergences_general.
Print Assumptions prey_predator_comparison_refuted.
