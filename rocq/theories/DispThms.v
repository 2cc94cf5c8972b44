(** C123: what a user reads in a displayed table.  Numbers are read back by [read_number]
    (DispSpec), which knows nothing of how the text is produced. *)
From Coq Require Import String Ascii List Arith ZArith Bool Reals Lia Lra.
From Verif Require Import FlModel ConfigModel FrameModel DispModel DispSpec DispProofs DispTable.
Import ListNotations.
Local Open Scope string_scope.

(** rounding to a nearest integer, ties in any direction *)
Definition rounds (rnd : R -> Z) : Prop := forall y, (0 <= y)%R -> (Rabs (IZR (rnd y) - y) <= 1 / 2)%R.

(** the text of a value, as a reader understands it: infinities by name; a number within
    [5 / 10 ^ fp] of the value in relative terms, with its sign, and zero only for zero *)
Definition faithful (fp : nat) (v : fl) (t : string) : Prop :=
  match v with
  | PInf => t = "+Inf"
  | NInf => t = "-Inf"
  | NaN => False
  | Fin x => exists y, read_number t = Some y /\ (Rabs (y - x) <= 5 / 10 ^ fp * Rabs x)%R /\
               (y = 0 <-> x = 0)%R /\ (y < 0 <-> x < 0)%R
  end.

Lemma rounds_near rnd : rounds rnd -> near rnd.
Proof. intros h y hy. specialize (h y hy). lra. Qed.
Lemma read_zero : read_number "0.0" = Some 0%R.
Proof.
  assert (E : read_number "0.0" = Some (0 + 0 / 10 ^ 1)%R) by reflexivity. rewrite E. f_equal. simpl. field.
Qed.
Lemma ftos_zero rnd fp : ftos rnd fp (Fin 0) = Shown "0.0".
Proof. unfold ftos, reqb. destruct (Req_EM_T 0 0); easy. Qed.
Lemma sgn_cases x : (x < 0 /\ sgn x = -1 \/ 0 <= x /\ sgn x = 1)%R.
Proof.
  unfold sgn. destruct (rltb x 0) eqn:E; [left; apply rltb_i in E|right; apply rltb_n in E]; easy.
Qed.
Lemma sgn_abs x : (sgn x * Rabs x = x)%R.
Proof. destruct (sgn_cases x) as [[h E]|[h E]]; rewrite E; [rewrite Rabs_left|rewrite Rabs_pos_eq]; lra. Qed.
Lemma sgn_err x m : (Rabs (sgn x * m - x) = Rabs (m - Rabs x))%R.
Proof.
  rewrite <- (sgn_abs x) at 2. rewrite <- Rmult_minus_distr_l, Rabs_mult.
  destruct (sgn_cases x) as [[h E]|[h E]]; rewrite E; [rewrite Rabs_left by lra|rewrite Rabs_R1]; ring.
Qed.

(** ** numbers *)
Theorem C123_number (rnd : R -> Z) (fp : nat) (v : fl) : rounds rnd -> 1 <= fp ->
  match v with
  | NaN => ftos rnd fp v = ValueError
  | _ => exists t, ftos rnd fp v = Shown t /\ faithful fp v t
  end.
Proof.
  intros hr hfp. apply rounds_near in hr. destruct v as [x| | |]; try easy.
  2,3: now eexists.
  destruct fp as [|k]; [lia|]. destruct (Req_dec x 0) as [->|hx].
  { exists "0.0". split; [apply ftos_zero|]. exists 0%R. split; [apply read_zero|].
    split; [|lra]. rewrite Rminus_0_r, Rabs_R0. lra. }
  destruct (ftos_read rnd (S k) x hr hx) as (t & ht & hv). exists t. split; [easy|].
  eexists. split; [exact hv|].
  assert (ha : (0 < Rabs x)%R) by now apply Rabs_pos_lt.
  pose proof (mag_pos rnd k (Rabs x) hr ha) as hm. set (m := mag rnd (S k) (Rabs x)) in *.
  split; [|destruct (sgn_cases x) as [[h E]|[h E]]; rewrite E; lra].
  rewrite sgn_err. eapply Rle_trans; [apply mag_error; easy|].
  pose proof (place_rel (S k) (Rabs x) ha). unfold Rdiv in *. lra.
Qed.

(** the error is at most half a unit of the last place shown *)
Theorem C123_places (rnd : R -> Z) (fp : nat) (x : R) : rounds rnd -> x <> 0%R ->
  exists t y, ftos rnd fp (Fin x) = Shown t /\ read_number t = Some y /\
    ((1 / 10 <= Rabs x < 1000)%R -> (Rabs (y - x) <= / 10 ^ fp / 2)%R) /\
    ((1 / 100 <= Rabs x < 1 / 10)%R -> (Rabs (y - x) <= / 10 ^ S fp / 2)%R) /\
    (forall e, (Rabs x < 1 / 100 \/ 1000 <= Rabs x)%R ->
       (powerRZ 10 e <= Rabs x < powerRZ 10 (e + 1))%R ->
       (Rabs (y - x) <= powerRZ 10 e / 10 ^ fp / 2)%R).
Proof.
  intros hr hx. apply rounds_near in hr.
  destruct (ftos_read rnd fp x hr hx) as (t & ht & hv). exists t. eexists. split; [exact ht|].
  split; [exact hv|]. assert (ha : (0 < Rabs x)%R) by now apply Rabs_pos_lt.
  pose proof (mag_error rnd fp (Rabs x) hr ha) as h. rewrite sgn_err. split; [|split].
  - intros g. now rewrite (place_mid fp _ g) in h.
  - intros g. now rewrite (place_low fp _ g) in h.
  - intros e g1 g2. rewrite (place_sci fp _ g1) in h. now rewrite (decade_unique _ _ g2) in h.
Qed.

(** displayed numbers are ordered as the values are *)
Theorem C123_order (rnd : R -> Z) (fp : nat) (x x' : R) : rounds rnd -> 1 <= fp -> (x <= x')%R ->
  exists t t' y y', ftos rnd fp (Fin x) = Shown t /\ ftos rnd fp (Fin x') = Shown t' /\
    read_number t = Some y /\ read_number t' = Some y' /\ (y <= y')%R.
Proof.
  intros hr hfp hx. apply rounds_near in hr. destruct fp as [|k]; [lia|].
  assert (key : forall z, exists t, ftos rnd (S k) (Fin z) = Shown t /\
     read_number t = Some (if Req_EM_T z 0 then 0 else sgn z * mag rnd (S k) (Rabs z))%R).
  { intros z. destruct (Req_EM_T z 0) as [->|hz].
    - exists "0.0". split; [apply ftos_zero|apply read_zero].
    - now apply ftos_read. }
  destruct (key x) as (t & ht & hv). destruct (key x') as (t' & ht' & hv').
  exists t, t'. do 2 eexists. split; [exact ht|]. split; [exact ht'|]. split; [exact hv|]. split; [exact hv'|].
  assert (pos : forall z, z <> 0%R -> (0 < mag rnd (S k) (Rabs z))%R).
  { intros z hz. apply mag_pos; [easy|]. now apply Rabs_pos_lt. }
  destruct (Req_EM_T x 0) as [e|e]; destruct (Req_EM_T x' 0) as [e'|e'].
  - lra.
  - specialize (pos x' e'). destruct (sgn_cases x') as [[h E]|[h E]]; rewrite E; lra.
  - specialize (pos x e). destruct (sgn_cases x) as [[h E]|[h E]]; rewrite E; lra.
  - pose proof (pos x e). pose proof (pos x' e').
    destruct (sgn_cases x) as [[h E]|[h E]]; destruct (sgn_cases x') as [[h' E']|[h' E']]; rewrite E, E'; try lra.
    + assert (mag rnd (S k) (Rabs x') <= mag rnd (S k) (Rabs x))%R; [|lra].
      apply mag_mono; [easy|]. rewrite !Rabs_left by easy. lra.
    + assert (mag rnd (S k) (Rabs x) <= mag rnd (S k) (Rabs x'))%R; [|lra].
      apply mag_mono; [easy|]. rewrite !Rabs_pos_eq by easy. lra.
Qed.

(** ** DataFrame.__repr__ *)
(** a table can be shown: two-dimensional, a name for every row, no more column names than
    columns, and no NaN; or a one-dimensional selection with nothing in it *)
Definition showable (d : frame fl) : Prop :=
  match f_data d with
  | D1 v => v = []
  | D2 rows => length rows <= length (f_rownames d) /\
               forall r, In r rows -> ~ In NaN r /\ length (f_colnames d) <= length r
  end.

Lemma body_rows rnd d rows body : f_data d = D2 rows -> repr_body rnd d = Shown body ->
  length body = length rows /\
  (forall i r, nth_error rows i = Some r -> exists n ts, nth_error (f_rownames d) i = Some n /\
     nth_error body i = Some ((n ++ ":") :: ts) /\ Forall2 (fun v t => ftos rnd 3 v = Shown t) r ts).
Proof.
  intros hd hb. unfold repr_body in hb. rewrite hd in hb. apply smap_inv in hb. split.
  - rewrite <- (Forall2_len _ _ _ _ _ hb), combine_length, seq_length. lia.
  - intros i r hi. apply (combine_seq_at _ _ _ _ 0) in hi.
    destruct (Forall2_at _ _ _ _ _ _ _ hb hi) as (b & hb' & E). simpl in E.
    destruct (nth_error (f_rownames d) i) as [n|]; [|discriminate].
    destruct (smap (ftos rnd 3) r) as [ts| |] eqn:F; try discriminate. simpl in E. inversion E; subst.
    exists n, ts. split; [easy|]. split; [easy|]. now apply smap_inv.
Qed.

Theorem C123_showable (rnd : R -> Z) (d : frame fl) :
  (exists s, frame_repr rnd d = Shown s) <-> showable d.
Proof.
  unfold showable, frame_repr. split.
  - intros [s hs]. destruct (repr_body rnd d) as [body| |] eqn:B; try discriminate. cbn [sbind] in hs.
    destruct (smap _ _) as [ws| |] eqn:W in hs; try discriminate.
    destruct (widths_of _ _ _ W) as [hl hw].
    destruct (f_data d) as [rows|v] eqn:D.
    + destruct (body_rows rnd d rows body D B) as [h1 h2]. split.
      * destruct (Nat.le_gt_cases (length rows) (length (f_rownames d))) as [h|h]; [easy|exfalso].
        assert (q : nth_error rows (length (f_rownames d)) <> None) by now apply nth_error_Some.
        destruct (nth_error rows (length (f_rownames d))) as [r|] eqn:E; [|easy].
        destruct (h2 _ _ E) as (n & ts & hn & _). assert (nth_error (f_rownames d) (length (f_rownames d)) = None)
          by (apply nth_error_None; lia). congruence.
      * intros r hr. apply In_nth_error in hr. destruct hr as [i hi].
        destruct (h2 i r hi) as (n & ts & hn & hb & hts). split.
        -- intros hN. apply In_nth_error in hN. destruct hN as [j hj].
           destruct (Forall2_at _ _ _ _ _ _ _ hts hj) as (t & _ & E). discriminate.
        -- rewrite (Forall2_len _ _ _ _ _ hts). simpl in hl.
           assert (g : length (f_colnames d) < length ws) by lia. apply nth_error_Some in g.
           destruct (nth_error ws (length (f_colnames d))) as [w|] eqn:E; [|easy].
           destruct (hw _ _ E) as (_ & g2 & _).
           destruct (g2 _ (or_intror (nth_error_In _ _ hb))) as (c & hc & _).
           assert (q : nth_error ((n ++ ":") :: ts) (length (f_colnames d)) <> None) by congruence.
           apply nth_error_Some in q. simpl in q. lia.
    + unfold repr_body in B. rewrite D in B. destruct v; [easy|discriminate].
  - intros h.
    assert (hb : exists body, repr_body rnd d = Shown body /\
       forall b, In b body -> length (f_colnames d) < length b).
    { unfold repr_body. destruct (f_data d) as [rows|v] eqn:D.
      - destruct h as [h1 h2].
        destruct (smap_ex _ _ (row_texts rnd d) (combine (seq 0 (length rows)) rows)) as [body hb].
        { intros [i r] hi. apply combine_seq_in in hi. destruct hi as [hi hr].
          unfold row_texts. cbn [fst snd]. assert (q : i < length (f_rownames d)) by lia. apply nth_error_Some in q.
          destruct (nth_error (f_rownames d) i) as [n|]; [|easy].
          apply nth_error_In in hr. destruct (h2 r hr) as [g _].
          destruct (smap_ex _ _ (ftos rnd 3) r) as [ts E]; [|rewrite E; simpl; eauto].
          intros v hv. apply ftos_nan. intros ->. now apply g. }
        exists body. split; [exact hb|]. intros b hin. apply In_nth_error in hin. destruct hin as [i hi].
        assert (B : repr_body rnd d = Shown body) by (unfold repr_body; rewrite D; exact hb).
        destruct (body_rows rnd d rows body D B) as [l1 l2].
        assert (q : i < length rows) by (rewrite <- l1; apply nth_error_Some; congruence).
        apply nth_error_Some in q. destruct (nth_error rows i) as [r|] eqn:E; [|easy].
        destruct (l2 i r E) as (n & ts & _ & e & hts). rewrite e in hi. inversion hi; subst. simpl.
        rewrite <- (Forall2_len _ _ _ _ _ hts). apply nth_error_In in E. destruct (h2 r E). lia.
      - subst v. exists []. split; [easy|]. easy. }
    destruct hb as (body & hb & hlen). rewrite hb. cbn [sbind].
    match goal with |- exists s, sbind (smap ?f ?l) _ = _ => destruct (smap_ex _ _ f l) as [ws hws] end.
    { intros j hj. apply in_seq in hj. simpl in hj.
      destruct (column_ex (("" :: f_colnames d) :: body) j) as [c hc].
      - intros r [<-|hr]; simpl; [lia|]. apply hlen in hr. lia.
      - rewrite hc. simpl. eauto. }
    rewrite hws. simpl. eauto.
Qed.

(** a NaN makes the whole table unshowable, by a ValueError *)
Theorem C123_nan (rnd : R -> Z) (d : frame fl) (rows : list (list fl)) :
  f_data d = D2 rows -> length rows <= length (f_rownames d) -> (exists r, In r rows /\ In NaN r) ->
  frame_repr rnd d = ValueError.
Proof.
  intros hd hl (r & hr & hn). unfold frame_repr, repr_body. rewrite hd.
  assert (cellsV : forall l, In NaN l -> smap (ftos rnd 3) l = ValueError).
  { induction l as [|v l IH]; [easy|]. intros hv. cbn [smap].
    destruct v as [x| | |]; [|simpl|simpl|easy].
    - destruct (proj2 (ftos_nan rnd 3 (Fin x))) as [t ht]; [easy|]. rewrite ht. simpl.
      destruct hv as [hv|hv]; [easy|]. now rewrite IH.
    - destruct hv as [hv|hv]; [easy|]. now rewrite IH.
    - destruct hv as [hv|hv]; [easy|]. now rewrite IH. }
  assert (cellsOr : forall l, (exists t, smap (ftos rnd 3) l = Shown t) \/ smap (ftos rnd 3) l = ValueError).
  { induction l as [|v l IH]; [left; now exists []|]. cbn [smap].
    destruct v as [x| | |]; [|simpl|simpl|now right].
    - destruct (proj2 (ftos_nan rnd 3 (Fin x))) as [t ht]; [easy|]. rewrite ht. simpl.
      destruct IH as [[u hu]|hu]; rewrite hu; simpl; eauto.
    - destruct IH as [[u hu]|hu]; rewrite hu; simpl; eauto.
    - destruct IH as [[u hu]|hu]; rewrite hu; simpl; eauto. }
  match goal with |- sbind (smap ?f ?l) _ = _ => assert (E : smap f l = ValueError); [|now rewrite E] end.
  assert (gen : forall l k, k + length l <= length (f_rownames d) -> In r l ->
    smap (row_texts rnd d) (combine (seq k (length l)) l) = ValueError).
  { induction l as [|r0 l IH]; [easy|]. intros k hk hin. cbn [length seq combine smap]. simpl in hk.
    unfold row_texts at 1. cbn [fst snd]. assert (q : k < length (f_rownames d)) by lia.
    apply nth_error_Some in q. destruct (nth_error (f_rownames d) k) as [n|]; [|easy].
    destruct hin as [->|hin].
    - now rewrite cellsV.
    - destruct (cellsOr r0) as [[u hu]|hu]; rewrite hu; simpl; [|easy]. rewrite IH; [easy|lia|easy]. }
  apply (gen rows 0); easy.
Qed.

(** when shown: one line for the header and one per row, all of the same length; in every
    line, column [j] occupies the same positions, and holds, padded on the left, the column
    name or the row name or the text of the value of that row and column; columns are at
    least 8 wide and no wider than needed; columns beyond the last name are not shown *)
Theorem C123_table (rnd : R -> Z) (d : frame fl) (rows : list (list fl)) (s : string) :
  rounds rnd -> f_data d = D2 rows -> frame_repr rnd d = Shown s ->
  exists (lines : list string) (ws : list nat),
    s = String.concat newline lines /\
    length lines = S (length rows) /\ length ws = S (length (f_colnames d)) /\
    (forall l, In l lines -> String.length l = total_width 1 ws) /\
    let field l j := substring (start_of 1 ws j) (nth j ws 0) l in
    (forall j n, nth_error (f_colnames d) j = Some n -> padded (nth (S j) ws 0) n (field (nth 0 lines "") (S j))) /\
    (forall i r, nth_error rows i = Some r ->
       (exists n, nth_error (f_rownames d) i = Some n /\
          padded (nth 0 ws 0) (n ++ ":") (field (nth (S i) lines "") 0)) /\
       (forall j v, j < length (f_colnames d) -> nth_error r j = Some v ->
          exists t, faithful 3 v t /\ padded (nth (S j) ws 0) t (field (nth (S i) lines "") (S j)))) /\
    (forall j, j < length ws -> 8 <= nth j ws 0 /\
       (nth j ws 0 = 8 \/ exists l c, In l lines /\ padded (nth j ws 0) c (field l j) /\ String.length c = nth j ws 0)).
Proof.
  intros hr hd hs. unfold frame_repr in hs.
  destruct (repr_body rnd d) as [body| |] eqn:B; try discriminate. cbn [sbind] in hs.
  destruct (smap _ _) as [ws| |] eqn:W in hs; try discriminate.
  destruct (widths_of _ _ _ W) as [hl hw]. destruct (body_rows rnd d rows body hd B) as [h1 h2].
  cbn [sbind] in hs. exists (map (layout " " ws) (("" :: f_colnames d) :: body)), ws.
  assert (fit : forall r, In r (("" :: f_colnames d) :: body) -> cells_fit ws r).
  { intros r hin j w hj. destruct (hw j w hj) as (_ & g & _). now apply g. }
  assert (cellp : forall r j c, In r (("" :: f_colnames d) :: body) -> j < length ws -> nth_error r j = Some c ->
    padded (nth j ws 0) c (substring (start_of 1 ws j) (nth j ws 0) (layout " " ws r))).
  { intros r j c hin hj hc. assert (e : nth_error ws j = Some (nth j ws 0)) by now apply nth_error_nth'.
    change 1 with (String.length " "). rewrite (layout_cell " " ws r j _ c) by auto.
    apply padded_rjust. destruct (fit r hin _ _ e) as (c' & hc' & q). congruence. }
  assert (at_i : forall i b, nth_error body i = Some b ->
     nth (S i) (map (layout " " ws) (("" :: f_colnames d) :: body)) "" = layout " " ws b).
  { intros i b hb. simpl. rewrite (nth_indep _ "" (layout " " ws [])) by (rewrite map_length; apply nth_error_Some; congruence).
    rewrite map_nth. f_equal. now apply nth_error_nth. }
  split; [congruence|]. split; [simpl; now rewrite map_length, h1|]. split; [exact hl|]. split.
  { intros l hin. apply in_map_iff in hin. destruct hin as (r & <- & hin).
    rewrite layout_length by now apply fit. easy. }
  cbn zeta. split; [|split].
  - intros j n hj. apply (cellp ("" :: f_colnames d)); [now left| |exact hj].
    simpl in hl. rewrite hl. apply -> Nat.succ_lt_mono. apply nth_error_Some. congruence.
  - intros i r hi. destruct (h2 i r hi) as (n & ts & hn & hb & hts).
    rewrite (at_i i _ hb). pose proof (or_intror (nth_error_In _ _ hb) : In _ (("" :: f_colnames d) :: body)) as hin.
    split.
    + exists n. split; [easy|]. apply (cellp _ 0 (n ++ ":") hin); [rewrite hl; simpl; lia|easy].
    + intros j v hj hv. destruct (Forall2_at _ _ _ _ _ _ _ hts hv) as (t & ht & E). exists t. split.
      * pose proof (C123_number rnd 3 v hr) as q. destruct v; [|..|discriminate];
          destruct q as (t' & e & f); try lia; congruence.
      * apply (cellp _ (S j) t hin); [rewrite hl; simpl; lia|exact ht].
  - intros j hj. assert (e : nth_error ws j = Some (nth j ws 0)) by now apply nth_error_nth'.
    destruct (hw _ _ e) as (g1 & g2 & g3). split; [easy|]. destruct g3 as [g3|(r & c & hin & hc & hcl)]; [easy|now left|right].
    exists (layout " " ws r), c. split; [now apply in_map|]. split; [now apply cellp|easy].
Qed.

(** ** Param.__repr__ *)
Lemma shown_faithful rnd fp v t : rounds rnd -> 1 <= fp -> ftos rnd fp v = Shown t -> faithful fp v t.
Proof.
  intros hr hfp h. pose proof (C123_number rnd fp v hr hfp) as q.
  destruct v; [|..|discriminate]; destruct q as (t' & e & f); congruence.
Qed.
Definition bounds_text (fmt : fl -> string) (b : option (fl * fl)) : string :=
  match b with None => "(-inf, inf)" | Some p => "[" ++ fmt (fst p) ++ ", " ++ fmt (snd p) ++ "]" end.
Lemma param_row_inv rnd fmt e b : param_row rnd fmt e = Shown b ->
  exists v w, ftos rnd 3 (e_value e) = Shown v /\ ftos rnd 3 (e_denorm e) = Shown w /\
    b = [e_name e ++ ":"; String.concat "->" (e_path e); e_norm e; bounds_text fmt (e_bounds e); v; w].
Proof.
  unfold param_row. intros h. destruct (ftos rnd 3 (e_value e)) as [v| |]; try discriminate.
  destruct (ftos rnd 3 (e_denorm e)) as [w| |]; try discriminate. cbn [sbind] in h.
  exists v, w. split; [easy|]. split; [easy|].
  unfold bounds_text. destruct (e_bounds e) as [[l u]|]; cbn [fst snd] in *; congruence.
Qed.

Theorem C123_param_showable (rnd : R -> Z) (fmt : fl -> string) (es : list entry) :
  (exists s, param_repr rnd fmt es = Shown s) <->
  forall e, In e es -> e_value e <> NaN /\ e_denorm e <> NaN.
Proof.
  unfold param_repr. split.
  - intros [s hs] e he. destruct (smap _ _) as [data| |] eqn:D in hs; try discriminate.
    apply smap_inv in D. apply In_nth_error in he. destruct he as [i hi].
    destruct (Forall2_at _ _ _ _ _ _ _ D hi) as (b & _ & E).
    destruct (param_row_inv _ _ _ _ E) as (v & w & hv & hw & _).
    split; apply (ftos_nan rnd 3); eauto.
  - intros h. destruct (smap_ex _ _ (param_row rnd fmt) es) as [data hd].
    + intros e he. destruct (h e he) as [h1 h2]. unfold param_row.
      destruct (proj2 (ftos_nan rnd 3 _) h1) as [v hv]. destruct (proj2 (ftos_nan rnd 3 _) h2) as [w hw].
      rewrite hv, hw. cbn [sbind]. eauto.
    + rewrite hd. cbn [sbind]. eauto.
Qed.

Theorem C123_param (rnd : R -> Z) (fmt : fl -> string) (es : list entry) (s : string) :
  rounds rnd -> es <> [] -> param_repr rnd fmt es = Shown s ->
  exists (lines : list string) (ws : list nat),
    s = String.concat newline lines /\ length lines = S (length es) /\ length ws = 6 /\
    (forall l, In l lines -> String.length l = total_width 4 ws) /\
    let field l j := substring (start_of 4 ws j) (nth j ws 0) l in
    (forall j h, nth_error ["Name:"; "Path"; "Norm"; "Bounds"; "Value"; "Denorm"] j = Some h ->
       padded (nth j ws 0) h (field (nth 0 lines "") j)) /\
    (forall i e, nth_error es i = Some e ->
       let cell j t := padded (nth j ws 0) t (field (nth (S i) lines "") j) in
       cell 0 (e_name e ++ ":") /\ cell 1 (String.concat "->" (e_path e)) /\ cell 2 (e_norm e) /\
       cell 3 (bounds_text fmt (e_bounds e)) /\
       (exists t, faithful 3 (e_value e) t /\ cell 4 t) /\
       (exists t, faithful 3 (e_denorm e) t /\ cell 5 t)).
Proof.
  intros hr hne hs. unfold param_repr in hs.
  destruct (smap _ _) as [data| |] eqn:D in hs; try discriminate. apply smap_inv in D.
  pose proof (Forall2_len _ _ _ _ _ D) as hlen.
  assert (hd : data <> []) by (intros ->; destruct es; [easy|discriminate]).
  cbn [sbind] in hs.
  set (ws := map (fun j => Nat.max (String.length (nth j param_headers ""))
                   (widest (map (fun r => nth j r "") data))) (seq 0 6)) in *.
  assert (hs' : s = String.concat newline (layout "    " ws param_headers :: map (layout "    " ws) data)).
  { destruct data; [easy|]. congruence. }
  clear hs. exists (layout "    " ws param_headers :: map (layout "    " ws) data), ws.
  assert (hl : length ws = 6) by (unfold ws; now rewrite map_length, seq_length).
  assert (hw : forall j, j < 6 -> nth j ws 0 = Nat.max (String.length (nth j param_headers ""))
                   (widest (map (fun r => nth j r "") data))).
  { intros j hj. do 6 (destruct j as [|j]; [reflexivity|]). lia. }
  assert (six : forall r, In r data -> length r = 6).
  { intros r hin. apply In_nth_error in hin. destruct hin as [i hi].
    destruct (Forall2_at_r _ _ _ _ _ _ _ D hi) as (e & _ & E).
    destruct (param_row_inv _ _ _ _ E) as (v & w & _ & _ & ->). easy. }
  assert (fit : forall r, In r (param_headers :: data) -> cells_fit ws r).
  { intros r hin j w hj. assert (hj6 : j < 6) by (rewrite <- hl; apply nth_error_Some; congruence).
    assert (w = nth j ws 0) by (symmetry; now apply nth_error_nth). subst w. rewrite (hw j hj6).
    assert (hr6 : length r = 6) by (destruct hin as [<-|hin]; [easy|auto]).
    exists (nth j r ""). split; [apply nth_error_nth'; lia|]. destruct hin as [<-|hin]; [lia|].
    assert (q : In (nth j r "") (map (fun r => nth j r "") data)) by (apply (in_map (fun r => nth j r "")); easy).
    apply widest_ge in q. lia. }
  assert (cellp : forall r j c, In r (param_headers :: data) -> j < 6 -> nth_error r j = Some c ->
    padded (nth j ws 0) c (substring (start_of 4 ws j) (nth j ws 0) (layout "    " ws r))).
  { intros r j c hin hj hc. assert (e : nth_error ws j = Some (nth j ws 0)) by (apply nth_error_nth'; lia).
    change 4 with (String.length "    "). rewrite (layout_cell "    " ws r j _ c) by auto.
    apply padded_rjust. destruct (fit r hin _ _ e) as (c' & hc' & q). congruence. }
  split; [easy|]. split; [simpl; now rewrite map_length, hlen|]. split; [easy|]. split.
  { intros l hin. change (layout "    " ws param_headers :: map (layout "    " ws) data)
      with (map (layout "    " ws) (param_headers :: data)) in hin.
    apply in_map_iff in hin. destruct hin as (r & <- & hin). now rewrite layout_length by now apply fit. }
  cbn zeta. split.
  - intros j h hj. apply (cellp param_headers); [now left| |exact hj].
    change 6 with (length param_headers). apply nth_error_Some. unfold param_headers. congruence.
  - intros i e hi. destruct (Forall2_at _ _ _ _ _ _ _ D hi) as (b & hb & E).
    destruct (param_row_inv _ _ _ _ E) as (v & w & hv & hw' & hbe).
    assert (at_i : nth (S i) (layout "    " ws param_headers :: map (layout "    " ws) data) "" = layout "    " ws b).
    { cbn [nth]. rewrite (nth_indep _ "" (layout "    " ws [])) by (rewrite map_length; apply nth_error_Some; congruence).
      rewrite map_nth. f_equal. now apply nth_error_nth. }
    rewrite at_i. pose proof (or_intror (nth_error_In _ _ hb) : In b (param_headers :: data)) as hin. subst b.
    split; [apply (cellp _ _ _ hin); [lia|reflexivity]|]. split; [apply (cellp _ _ _ hin); [lia|reflexivity]|].
    split; [apply (cellp _ _ _ hin); [lia|reflexivity]|]. split; [apply (cellp _ _ _ hin); [lia|reflexivity]|]. split.
    + exists v. split; [apply (shown_faithful rnd); easy || lia|]. apply (cellp _ _ _ hin); [lia|reflexivity].
    + exists w. split; [apply (shown_faithful rnd); easy || lia|]. apply (cellp _ _ _ hin); [lia|reflexivity].
Qed.

(** ** pretty_print_dictionary *)
Theorem C123_dictionary (rnd : R -> Z) (fp : nat) (d : list (string * dvalue)) :
  rounds rnd -> 1 <= fp ->
  exists w, 15 <= w /\ (forall k v, In (k, v) d -> String.length k + 2 <= w) /\
  let (ls, ok) := print_dict rnd fp d in
  (ok = true <-> forall k, ~ In (k, DFloat NaN) d) /\
  (ok = true -> length ls = length d) /\
  (ok = false -> exists k, nth_error d (length ls) = Some (k, DFloat NaN)) /\
  (forall i l, nth_error ls i = Some l -> exists k v t, nth_error d i = Some (k, v) /\
     padded w k (substring 0 w l) /\ substring w 2 l = ": " /\ substring (w + 2) (String.length l - (w + 2)) l = t /\
     match v with DFloat x => faithful fp x t | DOther s => t = s end).
Proof.
  intros hr hfp. exists (dict_width d). split; [unfold dict_width; lia|].
  assert (hk : forall k v, In (k, v) d -> String.length k + 2 <= dict_width d).
  { intros k v h. unfold dict_width. apply (in_map fst) in h. apply widest_ge in h. simpl in h. lia. }
  split; [exact hk|]. unfold print_dict. set (w := dict_width d) in *. clearbody w.
  induction d as [|[k v] d IH].
  { simpl. split; [split; easy|]. split; [easy|]. split; [easy|]. intros [|i] l; discriminate. }
  specialize (IH (fun k v h => hk k v (or_intror h))).
  assert (kw : String.length k <= w) by (specialize (hk k v (or_introl eq_refl)); lia).
  assert (lineP : forall t l, l = rjust w k ++ ": " ++ t ->
     padded w k (substring 0 w l) /\ substring w 2 l = ": " /\ substring (w + 2) (String.length l - (w + 2)) l = t).
  { intros t l ->. pose proof (length_rjust w k kw) as L. rewrite !length_app, L.
    split; [|split].
    - rewrite <- L at 2. rewrite substring_head. now apply padded_rjust.
    - rewrite <- L at 1. rewrite <- (Nat.add_0_r (String.length (rjust w k))), substring_skip.
      exact (substring_head ": " t).
    - rewrite <- L at 1. rewrite substring_skip. change 2 with (String.length ": " + 0) at 1. rewrite substring_skip.
      replace (w + (String.length ": " + String.length t) - (w + 2)) with (String.length t) by (simpl; lia).
      apply substring_all. }
  cbn [print_lines]. unfold dict_line. cbn [fst snd].
  destruct v as [x|s0].
  - destruct (ftos rnd fp x) as [t| |] eqn:E; cbn [sbind].
    + destruct (print_lines rnd fp w d) as [ls ok]. destruct IH as (i1 & i2 & i3 & i4).
      split; [|split; [|split]].
      * rewrite i1. split; intros h k' hin; [destruct hin as [hin|hin]; [|now apply (h k')]|].
        -- inversion hin; subst. discriminate.
        -- apply (h k'). now right.
      * intros h. simpl. now rewrite i2.
      * intros h. now apply i3.
      * intros [|i] l hl; simpl in hl.
        -- inversion hl. destruct (lineP t _ eq_refl) as (a & b & c). exists k, (DFloat x), t.
           split; [easy|]. split; [exact a|]. split; [exact b|]. split; [exact c|].
           now apply shown_faithful with rnd.
        -- now apply i4.
    + assert (x = NaN). { destruct x; try easy; destruct (proj2 (ftos_nan rnd fp (Fin x))) as [t ht]; [easy|congruence]. }
      subst x. split; [split; [easy|intros h; elim (h k); now left]|]. split; [easy|].
      split; [intros _; now exists k|]. intros [|i] l; discriminate.
    + exfalso. assert (x <> NaN) by (intros ->; discriminate). apply (ftos_nan rnd fp) in H. destruct H; congruence.
  - destruct (print_lines rnd fp w d) as [ls ok]. destruct IH as (i1 & i2 & i3 & i4).
    split; [|split; [|split]].
    * rewrite i1. split; intros h k' hin; [destruct hin as [hin|hin]; [discriminate|now apply (h k')]|].
      apply (h k'). now right.
    * intros h. simpl. now rewrite i2.
    * intros h. now apply i3.
    * intros [|i] l hl; simpl in hl.
      -- inversion hl. destruct (lineP s0 _ eq_refl) as (a & b & c). exists k, (DOther s0), s0.
         split; [easy|]. split; [exact a|]. split; [exact b|]. split; [exact c|easy].
      -- now apply i4.
Qed.

(** ** the display is not always normalised *)
Lemma rnd_is rnd y (n : Z) : near rnd -> (0 <= y)%R -> (Rabs (IZR n - y) < 1 / 2)%R -> rnd y = n.
Proof.
  intros hn hy h. pose proof (hn y hy) as g.
  assert (q : (Rabs (IZR (rnd y) - IZR n) < 1)%R).
  { replace (IZR (rnd y) - IZR n)%R with ((IZR (rnd y) - y) + - (IZR n - y))%R by ring.
    eapply Rle_lt_trans; [apply Rabs_triang|]. rewrite Rabs_Ropp. lra. }
  apply Rabs_def2 in q. rewrite <- minus_IZR in q. destruct q as [q1 q2].
  apply (lt_IZR _ 1) in q1. apply (lt_IZR (-1)) in q2. lia.
Qed.
Theorem C123_unnormalised (rnd : R -> Z) : rounds rnd ->
  ftos rnd 3 (Fin (99999 / 10000000)) = Shown "10.000e-3" /\
  ftos rnd 3 (Fin (9999996 / 10000)) = Shown "1000.000".
Proof.
  intros hr. apply rounds_near in hr. unfold ftos.
  assert (n0 : forall x, (0 < x)%R -> reqb x 0 = false).
  { intros x hx. unfold reqb. destruct (Req_EM_T x 0); [lra|easy]. }
  assert (sg : forall x, (0 < x)%R -> rltb x 0 = false) by (intros; apply rltb_n; lra).
  split.
  - rewrite n0, (Rabs_pos_eq (99999 / 10000000)) by lra.
    assert (E1 : rleb (1 / 10) (99999 / 10000000) = false) by (apply rleb_n; lra).
    assert (E2 : rleb (1 / 100) (99999 / 10000000) = false) by (apply rleb_n; lra).
    rewrite E1, E2. cbn [andb]. fold (decade (99999 / 10000000)).
    rewrite (decade_unique _ (-3)) by (simpl; lra).
    assert (v : (99999 / 10000000 / powerRZ 10 (-3) = 99999 / 10000)%R) by (simpl; field).
    rewrite v. unfold fixed. rewrite sg by lra. rewrite Rabs_pos_eq by lra.
    rewrite (rnd_is rnd _ 10000 hr); [reflexivity|simpl; lra|]. simpl. rewrite Rabs_pos_eq; lra.
  - rewrite n0, (Rabs_pos_eq (9999996 / 10000)) by lra.
    assert (E1 : rleb (1 / 10) (9999996 / 10000) = true) by (apply rleb_i; lra).
    assert (E2 : rltb (9999996 / 10000) 1000 = true) by (apply rltb_i; lra).
    rewrite E1, E2. cbn [andb]. unfold fixed. rewrite sg by lra. rewrite Rabs_pos_eq by lra.
    rewrite (rnd_is rnd _ 1000000 hr); [reflexivity|simpl; lra|]. simpl. rewrite Rabs_pos_eq; lra.
Qed.

(** ** concrete case: rounding half up, a table with two rows *)
Definition half_up (y : R) : Z := Int_part (y + 1 / 2).
Lemma half_up_rounds : rounds half_up.
Proof.
  intros y _. unfold half_up. destruct (base_Int_part (y + 1 / 2)) as [h1 h2].
  apply Rabs_le. lra.
Qed.
Definition small_table : frame fl :=
  mkFrame (D2 [[Fin 2; PInf]; [Fin 0; NInf]]) ["a"; "b"] ["r1"; "r2"].
Example C123_case :
  rounds half_up /\ showable small_table /\
  ftos half_up 3 (Fin (-2)) = Shown "-2.000" /\ read_number "-2.000" = Some (-2)%R /\
  frame_repr half_up small_table =
    Shown ("                a        b" ++ newline ++
           "     r1:    2.000     +Inf" ++ newline ++
           "     r2:      0.0     -Inf").
Proof.
  split; [exact half_up_rounds|]. split.
  { unfold showable. simpl. split; [lia|].
    intros r [<-|[<-|[]]]; (split; [|simpl; lia]); simpl; intuition discriminate. }
  pose proof (rounds_near _ half_up_rounds) as hn.
  assert (f2 : ftos half_up 3 (Fin 2) = Shown "2.000").
  { unfold ftos. assert (E0 : reqb 2 0 = false) by (unfold reqb; destruct (Req_EM_T 2 0); [lra|easy]).
    rewrite E0, Rabs_pos_eq by lra.
    assert (E1 : rleb (1 / 10) 2 = true) by (apply rleb_i; lra).
    assert (E2 : rltb 2 1000 = true) by (apply rltb_i; lra).
    assert (E3 : rltb 2 0 = false) by (apply rltb_n; lra).
    rewrite E1, E2. cbn [andb]. unfold fixed. rewrite E3, Rabs_pos_eq by lra.
    rewrite (rnd_is half_up _ 2000 hn); [reflexivity|simpl; lra|]. simpl. rewrite Rabs_pos_eq; lra. }
  split.
  { unfold ftos. assert (E0 : reqb (-2) 0 = false) by (unfold reqb; destruct (Req_EM_T (-2) 0); [lra|easy]).
    assert (a2 : Rabs (-2) = 2%R) by (rewrite Rabs_left; lra).
    rewrite E0, a2.
    assert (E1 : rleb (1 / 10) 2 = true) by (apply rleb_i; lra).
    assert (E2 : rltb 2 1000 = true) by (apply rltb_i; lra).
    assert (E3 : rltb (-2) 0 = true) by (apply rltb_i; lra).
    rewrite E1, E2. cbn [andb]. unfold fixed. rewrite E3, a2.
    rewrite (rnd_is half_up _ 2000 hn); [reflexivity|simpl; lra|]. simpl. rewrite Rabs_pos_eq; lra. }
  split.
  { assert (E : read_number "-2.000" = Some (- (2 + 0 / 10 ^ 3))%R) by reflexivity. rewrite E. f_equal. simpl. field. }
  assert (f0 := ftos_zero half_up 3).
  unfold frame_repr, repr_body. cbn -[ftos]. rewrite f2, f0. reflexivity.
Qed.
Print Assumptions C123_number.
Print Assumptions C123_places.
Print Assumptions C123_order.
Print Assumptions C123_showable.
Print Assumptions C123_nan.
Print Assumptions C123_table.
Print Assumptions C123_param_showable.
Print Assumptions C123_param.
Print Assumptions C123_dictionary.
Print Assumptions C123_unnormalised.
Print Assumptions C123_case.
