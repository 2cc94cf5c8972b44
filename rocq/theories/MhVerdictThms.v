(** Property C60, continued: what the convergence verdict on rhat says about the chains. *)
From Coq Require Import List Arith ZArith Reals Bool Lra Lia.
From Verif Require Import ConfigModel FlModel PriorModel PriorProofs MhModel MhProofs MhProofs2.
Import ListNotations.
Local Open Scope R_scope.

(** mean and variance with divisor n - 1 *)
Definition avg (l : list R) : R := fold_right Rplus 0 l / INR (length l).
Definition svar (l : list R) : R := fold_right Rplus 0 (map (fun v => (v - avg l) ^ 2) l) / (INR (length l) - 1).

Lemma sum_right l : sum_list l = fold_right Rplus 0 l.
Proof. induction l as [| a l ih]; [reflexivity |]. rewrite sum_list_cons. simpl. now rewrite ih. Qed.
Lemma mean_avg l : mean_l l = avg l. Proof. unfold mean_l, avg. now rewrite sum_right. Qed.
Lemma var1_svar l : var1 l = svar l.
Proof. unfold var1, svar. rewrite sum_right. do 2 f_equal. apply map_ext. intro v. rewrite mean_avg. ring. Qed.

(** one element of groups: one coordinate of the parameter, a list of values for every chain *)
Theorem C60_verdict : forall n groups, (2 <= n)%nat ->
  (forall blocks, In blocks groups -> (2 <= length blocks)%nat /\ forall l, In l blocks -> length l = n) ->
  (gr_ok (map (rhat_blocks n) groups) = true <->
   forall blocks, In blocks groups -> 0 < avg (map svar blocks) /\
     svar (map avg blocks) < (121 / 100 - (INR n - 1) / INR n) * avg (map svar blocks)).
Proof.
  intros n groups hn hg. unfold gr_ok. rewrite forallb_forall.
  assert (N : 2 <= INR n) by (apply (le_INR 2); exact hn).
  assert (K : forall blocks, In blocks groups -> (fl_lt (rhat_blocks n blocks) (Fin (11 / 10)) = true <->
    0 < avg (map svar blocks) /\ svar (map avg blocks) < (121 / 100 - (INR n - 1) / INR n) * avg (map svar blocks))).
  { intros blocks hin. destruct (hg blocks hin) as [hc hb].
    assert (EW : avg (map svar blocks) = W_of blocks) by (unfold W_of; rewrite mean_avg; f_equal; apply map_ext; intro; symmetry; apply var1_svar).
    assert (EB : B_of n blocks = INR n * svar (map avg blocks)).
    { unfold B_of. rewrite var1_svar. do 2 f_equal. apply map_ext. apply mean_avg. }
    rewrite EW. destruct (W_pos n blocks hn hc hb) as [W0 _].
    destruct (Req_dec (W_of blocks) 0) as [z | z].
    - split; [| intros [h _]; lra]. unfold rhat_blocks. fold (W_of blocks). rewrite z. unfold fl_div, reqb.
      destruct (Req_EM_T 0 0) as [_ | k]; [| contradiction].
      destruct (rltb 0 _); [discriminate |]. destruct (rltb _ 0); discriminate.
    - assert (Wp : 0 < W_of blocks) by lra. destruct (rhat_value n blocks hn hc Wp) as [r [-> [r0 e]]].
      rewrite EB in e. set (S := svar (map avg blocks)) in *. set (W := W_of blocks) in *.
      assert (e' : S = (r * r - (INR n - 1) / INR n) * W) by (rewrite e; field; lra).
      unfold fl_lt. destruct (Rlt_dec r (11 / 10)) as [h | h].
      + split; [intros _ | reflexivity]. split; [exact Wp |]. rewrite e'. apply Rmult_lt_compat_r; [exact Wp |]. assert (r * r < 121 / 100) by nra. lra.
      + split; [discriminate |]. intros [_ k]. exfalso. rewrite e' in k. apply Rmult_lt_reg_r in k; [| exact Wp]. assert (121 / 100 <= r * r) by nra. lra. }
  split.
  - intros h blocks hin. apply (K blocks hin). apply h. now apply in_map.
  - intros h r hr. apply in_map_iff in hr. destruct hr as [blocks [<- hin]]. apply (K blocks hin). now apply h.
Qed.
Print Assumptions C60_verdict.

(** two chains with the same values: converged; with means 0 and 10: not *)
Example C60_verdict_case : gr_ok (map (rhat_blocks 2) [[[0; 1]; [1; 0]]]) = true /\ gr_ok (map (rhat_blocks 2) [[[-1; 1]; [9; 11]]]) = false.
Proof.
  assert (H : forall a b c d, forall blocks, In blocks [[[a; b]; [c; d]]] -> (2 <= length blocks)%nat /\ forall l : list R, In l blocks -> length l = 2%nat).
  { intros a b c d blocks [<- | []]. split; [simpl; lia |]. intros l [<- | [<- | []]]; reflexivity. }
  split.
  - apply (C60_verdict 2 _ ltac:(lia) (H 0 1 1 0)). intros blocks [<- | []]. unfold avg, svar, avg. simpl. lra.
  - destruct (gr_ok _) eqn:E; [exfalso | reflexivity]. apply (proj1 (C60_verdict 2 _ ltac:(lia) (H (-1) 1 9 11))) with (blocks := [[-1; 1]; [9; 11]]) in E; [| now left].
    revert E. unfold avg, svar, avg. simpl. lra.
Qed.
