(* RemapThms.v: successive REMAP updates (C103). *)
From Coq Require Import List Reals Lra.
From mathcomp Require Import all_ssreflect all_algebra.
From Verif Require Import ConfigModel FlModel PriorModel PriorProofs PriorCritModel PriorCritThms RemapProofs LinAlg KrigModel RealAux2 Rinst LikModel
  MaternModel MaternCov LinQR LooProofs KrigProofs LikProofs InitProofs KrigProofs3 RemapModel.
Import ConfigModel.
Set Implicit Arguments.
Unset Strict Implicit.
Unset Printing Implicit Defensive.
Import Order.TTheory GRing.Theory Num.Theory.
Local Open Scope ring_scope.
Local Arguments exp : clear scopes.
Local Arguments ln : clear scopes.
Bind Scope ring_scope with R.

Section C103.
Variables (b b' : backend) (p d q r : nat) (qr : qr_fun R_rcfType q r).
Variables (x : 'M[R]_(q + r, d)) (P : 'M[R]_(q + r, q)) (z : 'cV[R]_(q + r)).
Hypothesis qrP : is_qr P (qr P).
Hypothesis fP : full_col_rank P.
Hypothesis zP : forall beta, z != P *m beta.
Variables (inv_cdf : R -> R) (guess : param d) (gamma coverage : R).
Hypothesis hc : inv_cdf_contract inv_cdf.
Hypothesis hg : Rlt (IZR 1) gamma.
Hypothesis h0 : Rlt (IZR 0) coverage.
Hypothesis h1 : Rlt coverage (IZR 1).
Let reml (t : param d) := matern_reml b b' p qr x P z t.1 t.2.
Let upd1 := update_remap_logsigma2 b b' p qr x P z inv_cdf guess gamma coverage.
Let upd2 := update_remap b b' p qr x P z inv_cdf guess gamma coverage.
Let lst (l : 'rV[R]_d) : seq R := [seq l 0 k | k <- enum 'I_d].

Lemma upd1E mc cp : (upd1 (Some mc) None cp None).1 =
  (fun t => logsigma2_criterion b b' p qr x P z inv_cdf (if cp is Some c then c.1 else mc.1) gamma coverage t.1 t.2).
Proof using Type. by rewrite /upd1 /update_remap_logsigma2 /select_remap_logsigma2; case: cp. Qed.
Lemma std_exists : exists std, [/\ logsigma2_prior_std inv_cdf gamma coverage = Some std, Rlt (IZR 0) std
  & forall s0 u l v, reml (u, l) = Ok (Fin v) -> logsigma2_criterion b b' p qr x P z inv_cdf s0 gamma coverage u l =
      Ok (Fin (Rplus v (Rdiv (Rmult (Rminus u s0) (Rminus u s0)) (Rmult (Rmult (IZR 2) std) std))))].
Proof using hc hg h0 h1.
have [std [E [Hs _]]] := coverage_holds inv_cdf gamma coverage (IZR 0) hc hg (conj h0 h1).
exists std; split=> // s0 u l v e; rewrite /logsigma2_criterion; move: e; rewrite /reml /= => -> /=.
rewrite /log_prior_gaussian_logsigma2 E /=; congr (Ok (Fin _)).
field; lra.
Qed.
Lemma reml_fin t : exists v, reml t = Ok (Fin v).
Proof using qrP fP zP. by have [a [Q [_ h]]] := reml_value b b' p x qrP fP zP t.2; eexists; exact: h. Qed.
Lemma min_uniq (f : R -> res fl) u u' : unique_min f u -> unique_min f u' -> u = u'.
Proof.
move=> [v [e h]] [v' [e' h']]; case: (Req_dec u u') => // ne; exfalso.
have [w [ew lt]] := h u' (fun e => ne (esym e)); have [w' [ew' lt']] := h' u ne.
rewrite ew in e'; case: e' => <- in lt'; rewrite ew' in e; case: e => ee; subst w'; lra.
Qed.

(** when a prior anchor (or covparam0) is given, the objective does not depend on model.covparam *)
Theorem C103_given_anchor mc mc' c0 cp ci alpha factor ps pr pm : c0 <> None \/ cp <> None ->
  (upd1 mc c0 cp ci).1 = (upd1 mc' c0 cp ci).1 /\
  omap fst (upd2 alpha factor mc c0 cp ci ps pr pm) = omap fst (upd2 alpha factor mc' c0 cp ci ps pr pm).
Proof using Type.
rewrite /upd1 /upd2 /update_remap_logsigma2 /update_remap /select_remap_logsigma2 /select_remap.
by case: mc mc' c0 cp ci => [a|] [a'|] [c|] [c'|] [i|] //= [] // _; case: (resolve_prior_args _ _ _ _ _ _ _) => [[[? ?] ?]|].
Qed.
(** the starting point is covparam0_init if given, else covparam0, else the parameters of the model, else the initial guess; a given
    prior anchor does not depend on it *)
Theorem C103_start mc c0 cp ci alpha factor ps pr pm :
  let start := match ci with Some i => i | None => match c0 with Some c => c | None => match mc with Some m => m | None => guess end end end in
  (upd1 mc c0 cp ci).2 = start /\ (forall o, upd2 alpha factor mc c0 cp ci ps pr pm = Some o -> o.2 = start) /\
  (forall c ci', cp = Some c -> (upd1 mc c0 cp ci).1 = (upd1 mc c0 cp ci').1 /\
     (upd1 mc c0 cp ci).1 = (fun t => logsigma2_criterion b b' p qr x P z inv_cdf c.1 gamma coverage t.1 t.2)).
Proof using Type.
rewrite /upd1 /upd2 /update_remap_logsigma2 /update_remap /select_remap_logsigma2 /select_remap.
split; first by case: mc c0 cp ci => [a|] [c|] [c'|] [i|].
split; last by move=> c ci' ->; case: mc c0 ci ci' => [a|] [c'|] [i|] [i'|].
by case: mc c0 cp ci => [a|] [c|] [c'|] [i|] o /=; case: (resolve_prior_args _ _ _ _ _ _ _) => [[[? ?] ?]|] // -[<-].
Qed.
(** the default update: starts at the parameters of the model, and any result at which its objective is not larger than at this
    start has a smaller restricted likelihood criterion, unless the variance is unchanged *)
Theorem C103_decrease theta theta' : let o := upd1 (Some theta) None None None in
  o.2 = theta /\ exists v v' w w', [/\ o.1 theta = Ok (Fin v), o.1 theta' = Ok (Fin v'), reml theta = Ok (Fin w), reml theta' = Ok (Fin w')
    & Rle v' v -> Rle w' w /\ (theta'.1 <> theta.1 -> Rlt w' w)].
Proof using qrP fP zP hc hg h0 h1.
move=> o; split; first by [].
have [std [E s0 V]] := std_exists; have [w ew] := reml_fin theta; have [w' ew'] := reml_fin theta'.
rewrite /o upd1E; do 2 eexists; exists w, w'; split=> //.
- exact: (V theta.1 theta.1 theta.2 w ew).
- exact: (V theta.1 theta'.1 theta'.2 w' ew').
have -> : Rdiv (Rmult (Rminus theta.1 theta.1) (Rminus theta.1 theta.1)) (Rmult (Rmult (IZR 2) std) std) = IZR 0 by field; lra.
set t := Rmult (Rminus _ _) _; move=> le.
have c0 : Rlt (IZR 0) (Rinv (Rmult (Rmult (IZR 2) std) std)) by apply: Rinv_0_lt_compat; nra.
have t0 : Rle (IZR 0) t by exact: Rle_0_sqr.
split; first by have := Rmult_le_pos _ _ t0 (Rlt_le _ _ c0); move: le; rewrite /Rdiv; lra.
move=> ne; have tp : Rlt (IZR 0) t by apply: Rlt_0_sqr; lra.
by have := Rmult_lt_0_compat _ _ tp c0; move: le; rewrite /Rdiv; lra.
Qed.

Section Map.
Variables (alpha factor : R) (pm : option (seq fl)) (rm : seq R).
Hypothesis ha : Rlt (IZR 0) alpha.
(** rm: the lower bounds, given or computed from the points *)
Hypothesis rmP : match pm with Some v => v = map Fin rm | None => compute_logrho_min (columns x) factor = Some (map Fin rm) end.
Hypothesis rml : length rm = d.

Lemma lst_fin l : loginvrho_list l = map Fin (lst l).
Proof using Type. by rewrite /loginvrho_list /lst -map_comp. Qed.
Lemma lst_opp l : map fl_opp (loginvrho_list l) = map Fin (map Ropp (lst l)).
Proof using Type. by rewrite lst_fin -!map_comp. Qed.
Lemma upd2E theta : upd2 (Fin alpha) factor (Some theta) None None None None None pm =
  Some (fun t => map_criterion b b' p qr x P z inv_cdf theta.1 gamma coverage (Fin alpha) (map Fin rm) (map Fin (map Ropp (lst theta.2))) t.1 t.2, theta).
Proof using rmP.
rewrite /upd2 /update_remap /= /select_remap /= /resolve_prior_args -lst_opp.
by case: pm rmP => [v|] ->.
Qed.
Lemma seq_map (A B : Type) (f : A -> B) s : map f s = List.map f s.
Proof. by elim: s => //= a s ->. Qed.
Lemma map_value theta t w : inside (lst theta.2) rm -> inside (lst t.2) rm -> reml t = Ok (Fin w) ->
  exists std, [/\ logsigma2_prior_std inv_cdf gamma coverage = Some std, Rlt (IZR 0) std &
   map_criterion b b' p qr x P z inv_cdf theta.1 gamma coverage (Fin alpha) (map Fin rm) (map Fin (map Ropp (lst theta.2))) t.1 t.2 =
   Ok (Fin (Rplus (Rplus w (Rdiv (Rmult (Rminus t.1 theta.1) (Rminus t.1 theta.1)) (Rmult (Rmult (IZR 2) std) std)))
      (rho_pen alpha (lst t.2) rm (List.map Ropp (lst theta.2)))))].
Proof using hc hg h0 h1 ha.
move=> i1 i2 e.
have [std [E [Hs V]]] := C97_value inv_cdf w t.1 theta.1 gamma coverage alpha (lst t.2) rm (List.map Ropp (lst theta.2)) hc hg (conj h0 h1) ha (inside_opp _ _ i1) i2.
exists std; split=> //; rewrite /map_criterion; move: e; rewrite /reml => -> /=.
by rewrite lst_fin !seq_map V.
Qed.
Lemma lst_len l : length (lst l) = d.
Proof using Type. by rewrite -[length _]/(size _) /lst size_map size_enum_ord. Qed.
Lemma map_outside theta t w : inside (lst theta.2) rm -> ~ inside (lst t.2) rm -> reml t = Ok (Fin w) ->
   map_criterion b b' p qr x P z inv_cdf theta.1 gamma coverage (Fin alpha) (map Fin rm) (map Fin (map Ropp (lst theta.2))) t.1 t.2 = Ok PInf.
Proof using hc hg h0 h1 ha rml.
move=> i1 i2 e; case: (inside_dec (lst t.2) rm); first by rewrite rml lst_len.
  by [].
move=> [k [y [m [e1 [e2 le]]]]].
have V := C97_outside inv_cdf w t.1 theta.1 gamma coverage alpha (lst t.2) rm (List.map Ropp (lst theta.2)) k y m hc hg (conj h0 h1) ha (inside_opp _ _ i1).
rewrite /map_criterion; move: e; rewrite /reml => -> /=; rewrite lst_fin !seq_map V //.
by rewrite rml lst_len.
Qed.
Lemma lst_inj l l' : lst l = lst l' -> l = l'.
Proof using Type.
move=> /eq_in_map h; apply/rowP => k; apply: h; exact: mem_enum.
Qed.

(** both priors; theta is in the support of the log-range prior (otherwise the update raises, see C43) *)
Theorem C103_decrease_map theta theta' : List.Forall2 Rlt rm (map Ropp (lst theta.2)) ->
  exists obj, upd2 (Fin alpha) factor (Some theta) None None None None None pm = Some (obj, theta) /\
  exists v w w' e, [/\ obj theta = Ok (Fin v), reml theta = Ok (Fin w), reml theta' = Ok (Fin w'), obj theta' = Ok e
    & fl_le e (Fin v) = true -> Rle w' w /\ (theta' <> theta -> Rlt w' w)].
Proof using qrP fP zP hc hg h0 h1 ha rmP rml.
rewrite seq_map => /opp_inside i1; rewrite upd2E; eexists; split; first by [].
have [w ew] := reml_fin theta; have [w' ew'] := reml_fin theta'.
have [std [E s0 V]] := map_value i1 i1 ew.
case: (inside_dec (lst theta'.2) rm); first by rewrite rml lst_len.
  move=> i2; have [std' [E' _ V']] := map_value i1 i2 ew'; rewrite E in E'; case: E' => es; subst std'.
  do 4 eexists; split; [exact: V | exact: ew | exact: ew' | exact: V' |].
  have -> : Rdiv (Rmult (Rminus theta.1 theta.1) (Rminus theta.1 theta.1)) (Rmult (Rmult (IZR 2) std) std) = IZR 0 by field; lra.
  move=> /fl_le_fin; set t := Rmult (Rminus _ _) _ => le.
  have c0 : Rlt (IZR 0) (Rinv (Rmult (Rmult (IZR 2) std) std)) by apply: Rinv_0_lt_compat; nra.
  have t0 : Rle (IZR 0) t by exact: Rle_0_sqr.
  have [k1 k2] := rho_pen_min alpha (lst theta.2) (lst theta'.2) rm ha i1 i2.
  have tc := Rmult_le_pos _ _ t0 (Rlt_le _ _ c0); rewrite -/(Rdiv _ _) in tc.
  split; first lra.
  move=> ne; case: (Req_dec theta'.1 theta.1) => [e1|n1].
    have n2 : lst theta'.2 <> lst theta.2.
      by move=> /lst_inj e2; apply: ne; rewrite [theta']surjective_pairing [theta]surjective_pairing e1 e2.
    by have := k2 n2; lra.
  have tp : Rlt (IZR 0) t by apply: Rlt_0_sqr; lra.
  have := Rmult_lt_0_compat _ _ tp c0; rewrite -/(Rdiv _ _); lra.
move=> [k [y [m [e1 [e2 le]]]]].
have V' : map_criterion b b' p qr x P z inv_cdf theta.1 gamma coverage (Fin alpha) (map Fin rm) (map Fin (map Ropp (lst theta.2))) theta'.1 theta'.2 = Ok PInf.
  apply: (map_outside i1 _ ew') => i2; move: e1 e2 le; clear -i2.
  elim: i2 k => [|a c li rr h _ IH] [|k] //=; first by move=> [<-] [<-] ?; lra.
  exact: IH.
by do 4 eexists; split; [exact: V | exact: ew | exact: ew' | exact: V' |].
Qed.
Lemma forall2_lst (Q : R -> R -> Prop) (l l' : 'rV[R]_d) : (forall k, Q (l 0 k) (l' 0 k)) -> List.Forall2 Q (lst l) (lst l').
Proof using Type. by move=> h; rewrite /lst; elim: (enum 'I_d) => /= [|k s IH]; constructor. Qed.
(** a parameter that an update leaves in place: its variance is the restricted likelihood estimate at its length scales, and no
    parameter at distance h improves the restricted likelihood by more than a multiple of h squared *)
Theorem C103_fixed_point theta obj v : List.Forall2 Rlt rm (map Ropp (lst theta.2)) ->
  upd2 (Fin alpha) factor (Some theta) None None None None None pm = Some (obj, theta) ->
  obj theta = Ok (Fin v) -> (forall t w, obj t = Ok (Fin w) -> Rle v w) ->
  unique_min (fun s => reml (s, theta.2)) theta.1 /\
  exists C delta, [/\ Rle (IZR 0) C, Rlt (IZR 0) delta &
    forall (t : param d) h, Rle (IZR 0) h -> Rle h delta -> Rle (Rabs (Rminus t.1 theta.1)) h -> (forall k, Rle (Rabs (Rminus (t.2 0 k) (theta.2 0 k))) h) ->
      exists w w', [/\ reml theta = Ok (Fin w), reml t = Ok (Fin w') & Rle (Rminus w (Rmult C (Rmult h h))) w']].
Proof using qrP fP zP hc hg h0 h1 ha rmP rml.
rewrite seq_map => /opp_inside i1; rewrite upd2E => -[<-] ev mn.
have [w ew] := reml_fin theta.
have [std [E s0 V]] := map_value i1 i1 ew.
rewrite V in ev; case: ev => ev.
have z0 : Rdiv (Rmult (Rminus theta.1 theta.1) (Rminus theta.1 theta.1)) (Rmult (Rmult (IZR 2) std) std) = IZR 0 by field; lra.
rewrite z0 in ev.
have c0 : Rlt (IZR 0) (Rinv (Rmult (Rmult (IZR 2) std) std)) by apply: Rinv_0_lt_compat; nra.
have B t w' : inside (lst t.2) rm -> reml t = Ok (Fin w') ->
  Rle (Rplus w (rho_pen alpha (lst theta.2) rm (List.map Ropp (lst theta.2))))
    (Rplus (Rplus w' (Rdiv (Rmult (Rminus t.1 theta.1) (Rminus t.1 theta.1)) (Rmult (Rmult (IZR 2) std) std))) (rho_pen alpha (lst t.2) rm (List.map Ropp (lst theta.2)))).
  move=> i2 e2; have [std' [E' _ V']] := map_value i1 i2 e2; rewrite E in E'; case: E' => es; subst std'.
  by have := mn _ _ V'; lra.
split.
- have [a [Q [Q0 hp]]] := reml_value b b' p x qrP fP zP theta.2.
  have r0 : Rlt (IZR 0) (INR r) by apply: lt_0_INR; apply/ssrnat.ltP; exact: (r_pos qrP fP zP).
  have hB : Rlt (IZR 0) (Rdiv Q (IZR 2)) by lra.
  have w0 : Rlt (IZR 0) (Rinv (Rmult std std)) by apply: Rinv_0_lt_compat; nra.
  have [|um [e [_ _]]] := @pen_root (Rdiv (INR r) (IZR 2)) (Rdiv Q (IZR 2)) (Rinv (Rmult std std)) theta.1 _ hB w0; first by lra.
  have eu : um = theta.1.
    case: (Req_dec um theta.1) => // ne; exfalso.
    have := @pen_min _ _ _ _ a _ theta.1 hB (Rlt_le _ _ w0) e (fun e => ne (esym e)).
    have := B (um, theta.2) _ i1 (hp um); have := hp theta.1; have -> : matern_reml b b' p qr x P z theta.1 theta.2 = reml theta by [].
    rewrite ew => -[->]; rewrite /pen; cbn [fst snd].
    set e1 := exp (Ropp um); set e2 := exp (Ropp theta.1).
    have -> : Rdiv (Rmult (Rminus um theta.1) (Rminus um theta.1)) (Rmult (Rmult (IZR 2) std) std) = Rdiv (Rmult (Rinv (Rmult std std)) (Rmult (Rminus um theta.1) (Rminus um theta.1))) (IZR 2) by field; lra.
    set k := Rdiv (Rmult (Rinv _) _) _; set rp := rho_pen _ _ _ _; move=> le lt.
    have e3 : Rdiv (Rmult (Rinv (Rmult std std)) (Rmult (Rminus theta.1 theta.1) (Rminus theta.1 theta.1))) (IZR 2) = IZR 0 by field; lra.
    rewrite e3 in lt; lra.
  rewrite eu in e; apply: (min_of_pen hp) => //; first exact: Rle_refl.
  have k0 : Rmult (Rinv (Rmult std std)) (Rminus theta.1 theta.1) = IZR 0 by field; lra.
  by rewrite k0 in e; move: e; lra.
have [C [delta [C0 [d0 hq]]]] := rho_pen_quad alpha (lst theta.2) rm ha i1.
exists (Rplus C (Rinv (Rmult (Rmult (IZR 2) std) std))), delta; split=> //; first lra.
move=> t h hh hd hu hl; have [w' ew'] := reml_fin t; exists w, w'; split=> //.
have [i2 le] := hq (lst t.2) h (conj hh hd) (@forall2_lst (fun x' x => Rle (Rabs (Rminus x' x)) h) _ _ hl).
have := B _ _ i2 ew'.
have sq : Rle (Rmult (Rminus t.1 theta.1) (Rminus t.1 theta.1)) (Rmult h h).
  by rewrite -[Rmult (Rminus _ _) _]/(Rsqr _) -[Rmult h h]/(Rsqr h); apply: Rsqr_le_abs_1; rewrite (Rabs_pos_eq h).
have := Rmult_le_compat_r _ _ _ (Rlt_le _ _ c0) sq; rewrite -!/(Rdiv _ _).
move: le; rewrite Rmult_plus_distr_r.
have -> : Rmult (Rinv (Rmult (Rmult (IZR 2) std) std)) (Rmult h h) = Rdiv (Rmult h h) (Rmult (Rmult (IZR 2) std) std) by rewrite /Rdiv Rmult_comm.
lra.
Qed.
End Map.

(** successive updates that each find the minimum over the variance, the length scales being fixed: the variance tends to the
    restricted likelihood estimate, whatever the prior and the starting value *)
Theorem C103_converges l (u : nat -> R) uR :
  (forall k, unique_min (fun s => (upd1 (Some (u k, l)) None None None).1 (s, l)) (u k.+1)) ->
  unique_min (fun s => reml (s, l)) uR -> Un_cv u uR.
Proof using qrP fP zP hc hg h0 h1.
move=> hu hR; have [a [Q [Q0 h]]] := reml_value b b' p x qrP fP zP l.
have [std [E s0 V]] := std_exists.
have r0 : Rlt (IZR 0) (INR r) by apply: lt_0_INR; apply/ssrnat.ltP; exact: (r_pos qrP fP zP).
have hB : Rlt (IZR 0) (Rdiv Q (IZR 2)) by lra.
have w0 : Rlt (IZR 0) (Rinv (Rmult std std)) by apply: Rinv_0_lt_compat; nra.
have -> : uR = ln (Rdiv (Rdiv Q (IZR 2)) (Rdiv (INR r) (IZR 2))).
  apply: (min_uniq hR); apply: (min_of_pen h) => //; [exact: Rle_refl | exact: (reml_min qrP fP zP)].
apply: (@prox_converges (Rdiv (INR r) (IZR 2)) (Rdiv Q (IZR 2)) (Rinv (Rmult std std))) => // [|k]; first by lra.
have [|um [e [_ _]]] := @pen_root (Rdiv (INR r) (IZR 2)) (Rdiv Q (IZR 2)) (Rinv (Rmult std std)) (u k) _ hB w0; first by lra.
suff -> : u k.+1 = um by [].
apply: (min_uniq (hu k)); apply: (@min_of_pen _ (Rdiv (INR r) (IZR 2)) (Rdiv Q (IZR 2)) (Rinv (Rmult std std)) (u k) a) => // [s|]; last exact: Rlt_le.
rewrite upd1E; cbn [fst snd]; rewrite (V _ _ _ _ (h s)); congr (Ok (Fin _)); rewrite /pen; field; lra.
Qed.
End C103.
Print Assumptions C103_given_anchor.
Print Assumptions C103_start.
Print Assumptions C103_decrease.
Print Assumptions C103_decrease_map.
Print Assumptions C103_fixed_point.
Print Assumptions C103_converges.
From Coq Require Import Epsilon.
(** the sequences of C103_converges exist from every starting value; a parameter inside the support *)
Example C103_case : exists (qr : qr_fun R_rcfType 1 1) (z : 'cV[R]_(1 + 1)),
  [/\ is_qr (w_P R_rcfType) (qr (w_P R_rcfType)), full_col_rank (w_P R_rcfType), forall beta, z != w_P R_rcfType *m beta,
      List.Forall2 Rlt [:: IZR 0] (map Ropp [seq (const_mx (IZR (-1)) : 'rV[R]_1) 0 k | k <- enum 'I_1])
    & forall inv_cdf gamma coverage (l : 'rV[R]_1) s x, inv_cdf_contract inv_cdf -> Rlt (IZR 1) gamma -> Rlt (IZR 0) coverage -> Rlt coverage (IZR 1) ->
      exists u : nat -> R, u 0%N = s /\ forall k,
        unique_min (fun t => (update_remap_logsigma2 NumPy NumPy 1 qr x (w_P R_rcfType) z inv_cdf (IZR 0, l) gamma coverage (Some (u k, l)) None None None).1 (t, l)) (u k.+1)].
Proof.
have [qr [z [hq fP zP _]]] := C97_case; exists qr, z; split=> //.
  by rewrite enum_ordSl enum_ord0 /= mxE; constructor; [lra | constructor].
move=> inv_cdf gamma coverage l s x hc hg h0 h1.
have ex s0 : exists um, unique_min (fun t => (update_remap_logsigma2 NumPy NumPy 1 qr x (w_P R_rcfType) z inv_cdf (IZR 0, l) gamma coverage (Some (s0, l)) None None None).1 (t, l)) um.
  by have [uR [um [_ [h _]]]] := C97_logsigma2 NumPy NumPy 1 x hq fP zP s0 l hc hg h0 h1; exists um.
pose f s0 := epsilon (inhabits (IZR 0)) (fun um => unique_min (fun t => (update_remap_logsigma2 NumPy NumPy 1 qr x (w_P R_rcfType) z inv_cdf (IZR 0, l) gamma coverage (Some (s0, l)) None None None).1 (t, l)) um).
exists (fix u n := if n is m.+1 then f (u m) else s); split=> // k.
exact: (epsilon_spec _ _ (ex _)).
Qed.
