(* Proofs about the names of the result files of ScriptsModel. *)
From Coq Require Import String Ascii Decimal DecimalString DecimalNat List.
From mathcomp Require Import all_ssreflect all_algebra.
From Verif Require Import ScriptsModel ScriptsRuns.
Set Implicit Arguments.
Unset Strict Implicit.
Unset Printing Implicit Defensive.

(* ---- strings as lists of characters ---- *)
Definition chars := list_ascii_of_string.

Lemma chars_app a b : chars (a ++ b)%string = chars a ++ chars b.
Proof. by elim: a => //= c a ->. Qed.

Lemma chars_inj a b : chars a = chars b -> a = b.
Proof. by move=> h; rewrite -(string_of_list_ascii_of_string a) -/(chars a) h string_of_list_ascii_of_string. Qed.

Definition isdigit (c : ascii) : bool := (48 <= nat_of_ascii c <= 57)%N.

Lemma dec_digits n : all isdigit (chars (dec n)).
Proof. by rewrite /dec; elim: (Nat.to_uint n). Qed.

Lemma dec_inj n m : dec n = dec m -> n = m.
Proof.
move=> h; apply: DecimalNat.Unsigned.to_uint_inj.
have := congr1 NilEmpty.uint_of_string h.
by rewrite /dec !NilEmpty.usu => -[].
Qed.

Lemma dec_charsI n m : chars (dec n) = chars (dec m) -> n = m.
Proof. by move/chars_inj/dec_inj. Qed.

(* ---- parsing ---- *)
Section Parse.
Variable T : Type.
Implicit Types a b d r s : seq T.

Lemma catsI s a b : a ++ s = b ++ s -> a = b.
Proof. exact: app_inv_tail. Qed.
Lemma catlI s a b : s ++ a = s ++ b -> a = b.
Proof. exact: app_inv_head. Qed.

Variable p : pred T.
(* the rest starts with no digit *)
Definition stops r : bool := if r is c :: _ then ~~ p c else true.

Lemma left_parse d d' r r' : all p d -> all p d' -> stops r -> stops r' ->
  d ++ r = d' ++ r' -> d = d' /\ r = r'.
Proof.
elim: d d' => [|c d IH] [|c' d'] //=.
- by move=> _ /andP[pc _] + _ e; rewrite e /= pc.
- by move=> /andP[pc _] _ _ + e; rewrite -e /= pc.
- move=> /andP[_ hd] /andP[_ hd'] hr hr' [-> e].
  by have [-> ->] := IH d' hd hd' hr hr' e.
Qed.

Lemma right_parse d d' a a' : all p d -> all p d' -> stops (rev a) -> stops (rev a') ->
  a ++ d = a' ++ d' -> a = a' /\ d = d'.
Proof.
move=> hd hd' ha ha' e.
have [] := @left_parse (rev d) (rev d') (rev a) (rev a').
- by rewrite all_rev.
- by rewrite all_rev.
- by [].
- by [].
- by rewrite -!rev_cat e.
by move=> h1 h2; rewrite -(revK a) h2 revK -(revK d) h1 revK.
Qed.
End Parse.

(* the usual form: a separator ending in no digit, a number, a fixed end *)
Lemma parse_number (sep fin : string) a a' n n' :
  stops isdigit (rev (chars sep)) -> sep <> ""%string ->
  ((a ++ chars sep) ++ chars (dec n)) ++ chars fin = ((a' ++ chars sep) ++ chars (dec n')) ++ chars fin ->
  a = a' /\ n = n'.
Proof.
move=> h0 h1 /catsI.
have st b : stops isdigit (rev (b ++ chars sep)).
  rewrite rev_cat; move: h0; case E : (rev (chars sep)) => [|c s] //.
  move: (congr1 (@rev ascii) E); rewrite revK; case: sep h1 E => //.
move=> /(right_parse (dec_digits n) (dec_digits n') (st a) (st a')) [/catsI -> /dec_charsI ->].
by [].
Qed.

Ltac names := move=> /(congr1 chars); rewrite !chars_app ?catA.

(* the modes the scripts implement; any other one raises NotImplementedError before a file is
   written *)
Definition moment_mode (mode : string) : Prop :=
  mode = "raw"%string \/ mode = "central"%string \/ mode = "scaled"%string.

Lemma mode_t_inj m m' t t' : moment_mode m -> moment_mode m' ->
  (m ++ suffix_t t)%string = (m' ++ suffix_t t')%string -> m = m' /\ t = t'.
Proof.
by move=> [|[|]] -> [|[|]] ->; case: t; case: t'.
Qed.

Lemma bb_mf_file_inj m t N k m' t' N' k' : moment_mode m -> moment_mode m' ->
  bb_mf_file m t N k = bb_mf_file m' t' N' k' -> [/\ m = m', t = t', N = N' & k = k'].
Proof.
move=> hm hm'; rewrite /bb_mf_file; names.
move=> /(@parse_number "_mc_" ".npz") [] // + ->.
move=> /(fun e => congr1 (fun s => s ++ chars "") e) /(@parse_number "_N_" "") [] // + ->.
rewrite -!catA => /catlI; rewrite -!chars_app => /chars_inj e.
by have [-> ->] := mode_t_inj hm hm' e.
Qed.

Lemma bb_mf_packed_inj b m md t N b' m' md' t' N' : moment_mode md -> moment_mode md' ->
  bb_mf_packed b m md t N = bb_mf_packed b' m' md' t' N' -> [/\ b = b', m = m', md = md', t = t' & N = N'].
Proof.
move=> hm hm'; rewrite /bb_mf_packed; names.
move=> /(@parse_number "_" ".npz") [] // + ->.
rewrite -!catA => /catlI.
move=> /(left_parse (dec_digits _) (dec_digits _)) [] // /dec_charsI -> /catlI.
move=> /(left_parse (dec_digits _) (dec_digits _)) [] // /dec_charsI -> /catlI.
rewrite -!chars_app => /chars_inj e.
by have [-> ->] := mode_t_inj hm hm' e.
Qed.

Lemma bb_errs_file_inj b m md t N b' m' md' t' N' : moment_mode md -> moment_mode md' ->
  bb_errs_file b m md t N = bb_errs_file b' m' md' t' N' -> [/\ b = b', m = m', md = md', t = t' & N = N'].
Proof.
move=> hm hm'; rewrite /bb_errs_file; names.
move=> /(@parse_number "_N_" ".npz") [] // + ->.
rewrite -!catA => /catlI.
move=> /(left_parse (dec_digits _) (dec_digits _)) [] // /dec_charsI -> /catlI.
move=> /(left_parse (dec_digits _) (dec_digits _)) [] // /dec_charsI -> /catlI.
rewrite -!chars_app => /chars_inj e.
by have [-> ->] := mode_t_inj hm hm' e.
Qed.

Lemma bb_pf_file_inj n tme b m k n' tme' b' m' k' :
  bb_pf_file n tme b m k = bb_pf_file n' tme' b' m' k' -> [/\ b = b', m = m' & k = k'].
Proof.
rewrite /bb_pf_file; names.
move=> /(@parse_number "_mc_" ".npz") [] // + ->.
rewrite -!catA => /catlI.
move=> /(left_parse (dec_digits _) (dec_digits _)) [] // /dec_charsI -> /catlI.
by move=> /dec_charsI ->.
Qed.

Lemma bb_ghf_file_inj gh tme gh' tme' : bb_ghf_file gh tme = bb_ghf_file gh' tme' -> gh = gh' /\ tme = tme'.
Proof.
rewrite /bb_ghf_file; names.
move=> /(@parse_number "_tme_" ".npz") [] // + ->.
by move=> /catlI /dec_charsI ->.
Qed.

Lemma bb_pf_packed_inj b m b' m' : bb_pf_packed b m = bb_pf_packed b' m' -> b = b' /\ m = m'.
Proof.
rewrite /bb_pf_packed; names.
move=> /(@parse_number "_m_" ".npz") [] // + ->.
by move=> /catlI /dec_charsI ->.
Qed.

Lemma bb_bf_packed_inj b m b' m' : bb_bf_packed b m = bb_bf_packed b' m' -> b = b' /\ m = m'.
Proof.
rewrite /bb_bf_packed; names.
move=> /(@parse_number "_m_" ".npz") [] // + ->.
by move=> /catlI /dec_charsI ->.
Qed.

Lemma pe_pf_file_inj n cr e k n' cr' e' k' :
  pe_pf_file n cr e k = pe_pf_file n' cr' e' k' -> [/\ cr = cr', e = e' & k = k'].
Proof.
rewrite /pe_pf_file; names.
move=> /(@parse_number "mc_" ".npz") [] // + ->.
by case: cr; case: cr'; case: e; case: e'.
Qed.

Lemma pe_gh_file_inj gh e k gh' e' k' :
  pe_gh_file gh e k = pe_gh_file gh' e' k' -> [/\ gh = gh', e = e' & k = k'].
Proof.
rewrite /pe_gh_file; names.
move=> /(@parse_number "_mc_" ".npz") [] // + ->.
rewrite -!catA => /catlI /(left_parse (dec_digits _) (dec_digits _)) [].
- by case: e.
- by case: e'.
by move=> /dec_charsI ->; case: e; case: e'.
Qed.

Lemma pe_mf_file_inj N e k N' e' k' :
  pe_mf_file N e k = pe_mf_file N' e' k' -> [/\ N = N', e = e' & k = k'].
Proof.
rewrite /pe_mf_file; names.
move=> /(@parse_number "_mc_" ".npz") [] // + ->.
rewrite -!catA => /catlI /(left_parse (dec_digits _) (dec_digits _)) [].
- by case: e.
- by case: e'.
by move=> /dec_charsI ->; case: e; case: e'.
Qed.

Lemma pe_ekf_file_inj e k e' k' : pe_ekf_file e k = pe_ekf_file e' k' -> e = e' /\ k = k'.
Proof.
rewrite /pe_ekf_file; names.
move=> /(@parse_number "_mc_" ".npz") [] // + ->.
by case: e; case: e'.
Qed.

Lemma pe_gh_ekf_disjoint gh e k e' k' : pe_gh_file gh e k <> pe_ekf_file e' k'.
Proof. by case: e'. Qed.

Lemma conv_mf_file_inj m N m' N' : moment_mode m -> moment_mode m' ->
  conv_mf_file m N = conv_mf_file m' N' -> m = m' /\ N = N'.
Proof.
move=> hm hm'; rewrite /conv_mf_file; names.
move=> /(@parse_number "_N_" ".npz") [] // + ->.
by move=> /catlI /chars_inj ->.
Qed.

Lemma conv_pf_file_inj n k n' k' : conv_pf_file n k = conv_pf_file n' k' -> n = n' /\ k = k'.
Proof.
rewrite /conv_pf_file; names.
move=> /(@parse_number "_mc_" ".npz") [] // + ->.
by move=> /catlI /dec_charsI ->.
Qed.

Lemma conv_pf_packed_inj n n' : conv_pf_packed n = conv_pf_packed n' -> n = n'.
Proof. by rewrite /conv_pf_packed; names => /catsI /catlI /dec_charsI. Qed.

Lemma tp_mf_file_inj tme m t N tme' m' t' N' : moment_mode m -> moment_mode m' ->
  tp_mf_file tme m t N = tp_mf_file tme' m' t' N' -> [/\ m = m', t = t' & N = N'].
Proof.
move=> hm hm'; rewrite /tp_mf_file; names.
move=> /(@parse_number "_N_" ".npz") [] // + ->.
rewrite -!catA => /catlI; rewrite -!chars_app => /chars_inj e.
by have [-> ->] := mode_t_inj hm hm' e.
Qed.

Lemma pp_mf_file_inj m tr N k m' tr' N' k' : moment_mode m -> moment_mode m' ->
  pp_mf_file m tr N k = pp_mf_file m' tr' N' k' -> [/\ m = m', tr = tr', N = N' & k = k'].
Proof.
move=> hm hm'; rewrite /pp_mf_file; names.
move=> /(@parse_number "_mc_" ".npz") [] // + ->.
move=> /(fun e => congr1 (fun s => s ++ chars "") e) /(@parse_number "_N_" "") [] // + ->.
rewrite -!catA => /catlI; move: hm hm'.
by move=> [|[|]] -> [|[|]] ->; rewrite ?cats0 // => /catlI/catlI/chars_inj ->.
Qed.

Lemma pp_pf_file_inj n tr k n' tr' k' : pp_pf_file n tr k = pp_pf_file n' tr' k' -> tr = tr' /\ k = k'.
Proof.
rewrite /pp_pf_file; names.
move=> /(@parse_number "_mc_" ".npz") [] // + ->.
by move=> /catlI /chars_inj ->.
Qed.

Lemma pp_ghf_ekf_file_inj g tr k g' tr' k' :
  pp_ghf_ekf_file g tr k = pp_ghf_ekf_file g' tr' k' -> tr = tr' /\ k = k'.
Proof.
rewrite /pp_ghf_ekf_file; names.
move=> /(@parse_number "_mc_" ".npz") [] // + ->.
by move=> /catlI /chars_inj ->.
Qed.

(* ---- rm prefix* ---- *)
Lemma prefixP g f : String.prefix g f <-> exists r, f = (g ++ r)%string.
Proof.
elim: g f => [|c g IH] f; first by split=> [_|_]; [exists f|case: f].
case: f => [|c' f] /=; first by split=> // -[].
case: ascii_dec => [->|ne]; last by split=> // -[r [h _]]; case: ne.
rewrite IH; split=> -[r e]; exists r; first by rewrite e.
by case: e.
Qed.

Lemma bb_pf_globP n tme b m k b' m' :
  String.prefix (bb_pf_glob b' m') (bb_pf_file n tme b m k) <-> b = b' /\ m = m'.
Proof.
rewrite prefixP; split=> [[r]|[-> ->]].
- rewrite /bb_pf_glob /bb_pf_file; names; rewrite -!catA => /catlI.
  move=> /(left_parse (dec_digits _) (dec_digits _)) [] // /dec_charsI -> /catlI.
  by move=> /(left_parse (dec_digits _) (dec_digits _)) [] // /dec_charsI ->.
- exists (dec k ++ ".npz")%string; apply: chars_inj.
  by rewrite /bb_pf_glob /bb_pf_file !chars_app -!catA.
Qed.

Lemma bb_pf_glob_packed b m b' m' : ~~ String.prefix (bb_pf_glob b' m') (bb_pf_packed b m).
Proof.
apply/negP => /prefixP [r]; rewrite /bb_pf_glob /bb_pf_packed; names; rewrite -!catA => /catlI.
move=> /(left_parse (dec_digits _) (dec_digits _)) [] // _ /catlI.
by move=> /(left_parse (dec_digits _) (dec_digits _)) [].
Qed.

Lemma conv_pf_globP n k n' : String.prefix (conv_pf_glob n') (conv_pf_file n k) <-> n = n'.
Proof.
rewrite prefixP; split=> [[r]|->].
- rewrite /conv_pf_glob /conv_pf_file; names; rewrite -!catA => /catlI.
  by move=> /(left_parse (dec_digits _) (dec_digits _)) [] // /dec_charsI ->.
- exists (dec k ++ ".npz")%string; apply: chars_inj.
  by rewrite /conv_pf_glob /conv_pf_file !chars_app -!catA.
Qed.

Lemma conv_pf_glob_packed n n' : ~~ String.prefix (conv_pf_glob n') (conv_pf_packed n).
Proof.
apply/negP => /prefixP [r]; rewrite /conv_pf_glob /conv_pf_packed; names; rewrite -!catA => /catlI.
by move=> /(left_parse (dec_digits _) (dec_digits _)) [].
Qed.

Lemma bb_bf_globP ng ru ni me k : String.prefix bb_bf_glob (bb_bf_file ng ru ni me k).
Proof. by apply/prefixP; exists (dec k ++ ".npz")%string. Qed.
Lemma bb_bf_glob_packed b m : ~~ String.prefix bb_bf_glob (bb_bf_packed b m).
Proof. by []. Qed.

(* ---- the blocks of the scripts ---- *)
Lemma file_inP f fs : file_in f fs <-> In f fs.
Proof.
elim: fs => //= g fs IH; rewrite -IH; split.
- by move=> /orP[/String.eqb_eq ->|h]; [left|right].
- by move=> [->|->]; rewrite ?String.eqb_refl ?orbT.
Qed.

Lemma In_map_iota (f : nat -> string) x a n : In x [seq f k | k <- iota a n] <-> exists2 k, (a <= k < a + n)%N & x = f k.
Proof.
elim: n a => [|n IH] a /=.
- by split=> // -[k]; rewrite addn0 => /andP[h1 h2]; move: (leq_ltn_trans h1 h2); rewrite ltnn.
rewrite IH; split.
- move=> [<-|[k /andP[h1 h2] ->]].
    by exists a => //; rewrite leqnn addnS ltnS leq_addr.
  by exists k => //; rewrite (ltnW h1) addnS -addSn h2.
- move=> [k /andP[h1 h2] ->]; move: h1; rewrite leq_eqVlt => /orP[/eqP->|h1]; first by left.
  by right; exists k => //; rewrite h1 addSn -addnS.
Qed.

Section Block.
Variables (file : nat -> string) (packed glob : string).
Hypothesis globF : forall k, String.prefix glob (file k).
Hypothesis globP : ~~ String.prefix glob packed.
Hypothesis fileI : forall k k', file k = file k' -> k = k'.

Lemma pack_block_ok p s maxmc fs : (maxmc <= p * s)%N ->
  pack_block file packed glob p s maxmc fs = Ret (packed :: [seq f <- fs | ~~ String.prefix glob f]).
Proof.
move=> h; rewrite /pack_block batch_ids_iota /batch_maxmc read_ids_iota.
have -> : all (fun k => file_in (file k) ([seq file k | k <- iota 0 (p * s)] ++ fs)) (iota 0 maxmc).
  apply/allP => k; rewrite mem_iota /= add0n => km; apply/file_inP/in_or_app; left.
  by apply/In_map_iota; exists k => //; rewrite add0n (leq_trans km h).
rewrite /= globP filter_cat; congr (Ret (_ :: _)).
have -> : [seq f <- [seq file k | k <- iota 0 (p * s)] | ~~ String.prefix glob f] = [::].
  by elim: (iota 0 _) => //= k l IH; rewrite globF.
by [].
Qed.

Lemma pack_block_missing p s maxmc fs : (p * s < maxmc)%N ->
  (forall k, ~ In (file k) fs) -> pack_block file packed glob p s maxmc fs = IndexError.
Proof.
move=> h nin; rewrite /pack_block batch_ids_iota /batch_maxmc read_ids_iota.
case: allP => // H; exfalso.
have inp : (p * s)%N \in iota 0 maxmc by rewrite mem_iota add0n.
have /file_inP hin := H _ inp.
case: (in_app_or _ _ _ hin).
- by move=> /In_map_iota [k]; rewrite add0n /= => + /fileI e; rewrite -e ltnn.
- exact: nin.
Qed.
End Block.

Lemma bb_pf_block_ok n tme b m p s fs : (1000 <= p * s)%N ->
  bb_pf_block n tme b m p s fs = Ret (bb_pf_packed b m :: [seq f <- fs | ~~ String.prefix (bb_pf_glob b m) f]).
Proof.
move=> h; apply: pack_block_ok => //; last exact: bb_pf_glob_packed.
by move=> k; apply/bb_pf_globP.
Qed.

Lemma bb_pf_block_missing n tme b m p s : (p * s < 1000)%N -> bb_pf_block n tme b m p s [::] = IndexError.
Proof.
move=> h; apply: (@pack_block_missing (bb_pf_file n tme b m) _ _ _ p s _ _ h); last by move=> k [].
by move=> k k' e; have [] := bb_pf_file_inj e.
Qed.

Lemma conv_pf_block_ok n p s fs :
  conv_pf_block n p s fs = Ret (conv_pf_packed n :: [seq f <- fs | ~~ String.prefix (conv_pf_glob n) f]).
Proof.
apply: pack_block_ok => //; last exact: conv_pf_glob_packed.
by move=> k; apply/conv_pf_globP.
Qed.
