(** Interrupted saves: a half-written build graph is never accepted, and FileSaver leaves the old or the new contents. *)
From Coq Require Import List Bool Arith NArith ZArith Lia.
From Verif Require Import Str LauncherModel LauncherTheorems PersistModel PersistTheorems SaveModel.
Import ListNotations.

(** ** Specification *)

(** The complete new file. *)
Definition complete (head : str) (body : list str) : str := wBytes (Some magic) ++ head ++ concat body.

(** ** Proofs *)

Lemma overwrite_end content bytes : overwrite content (length content) bytes = content ++ bytes.
Proof. unfold overwrite. rewrite firstn_all, skipn_all2 by lia. now rewrite app_nil_r. Qed.

Lemma write_chunks_end chunks : forall content os c p os',
  write_chunks content (length content) chunks os = (c, p, os') ->
  exists tail, c = content ++ tail /\ (p = Going -> tail = concat chunks)
            /\ exists more, concat chunks = tail ++ more.
Proof.
  induction chunks as [|b chunks IH]; intros content os c p os'; cbn [write_chunks].
  - intros [= <- <- <-]. exists []. rewrite app_nil_r. repeat split; auto. exists []. reflexivity.
  - destruct (match os with [] => (Full, []) | o :: os => (o, os) end) as [o os1].
    assert (K : forall k, firstn k b ++ skipn k b ++ concat chunks = concat (b :: chunks)) by (intros; cbn; now rewrite app_assoc, firstn_skipn).
    destruct o as [|k|k]; cbn [write_chunk]; rewrite overwrite_end.
    + intros E. replace (length content + length b) with (length (content ++ b)) in E by now rewrite app_length.
      destruct (IH _ _ _ _ _ E) as (tail & -> & G & more & M). exists (b ++ tail). rewrite app_assoc. repeat split.
      * intros P. cbn. now rewrite (G P).
      * exists more. cbn. now rewrite M, app_assoc.
    + destruct (Nat.ltb_spec k (length b)) as [L|L].
      * intros [= <- <- <-]. exists (firstn k b). split; [reflexivity|]. split; [discriminate|]. exists (skipn k b ++ concat chunks). now rewrite K.
      * rewrite firstn_all2 by lia. intros E. replace (length content + length b) with (length (content ++ b)) in E by now rewrite app_length.
        destruct (IH _ _ _ _ _ E) as (tail & -> & G & more & M). exists (b ++ tail). rewrite app_assoc. repeat split.
        -- intros P. cbn. now rewrite (G P).
        -- exists more. cbn. now rewrite M, app_assoc.
    + intros [= <- <- <-]. exists (firstn k b). split; [reflexivity|]. split; [discriminate|]. exists (skipn k b ++ concat chunks). now rewrite K.
Qed.

(** A file that begins with a prefix of the blank head is refused. *)
Lemma blank_refused content more x : wBytes (Some blank) ++ more = content ++ x -> open_graph (Some content) = None.
Proof.
  intros E. unfold open_graph.
  destruct (Nat.le_gt_cases 22 (length content)) as [L|L].
  - assert (C : content = wBytes (Some blank) ++ skipn 22 content).
    { rewrite <- (firstn_skipn 22 content) at 1. f_equal. apply (f_equal (firstn 22)) in E.
      rewrite firstn_app_le in E by reflexivity. rewrite firstn_app_le in E by exact L.
      rewrite <- E. apply (firstn_all2 (n := 22)). apply le_n. }
    rewrite C. rewrite (reads_Bytes (Some blank)) by reflexivity. reflexivity.
  - destruct (rBytes content) as [[[m|] rest]|] eqn:R; auto. destruct (str_eqb m magic) eqn:Em; auto. exfalso.
    apply str_eqb_eq in Em. subst m.
    unfold rBytes, bind in R. destruct (rU32 content) as [[n r]|] eqn:R1; [|discriminate].
    destruct (n =? null_mark)%N; [discriminate|]. unfold take at 1 in R.
    destruct (length r <? N.to_nat n) eqn:Q; [discriminate|]. unfold ret in R. injection R as Ef _.
    apply Nat.ltb_ge in Q. unfold rU32, bind, take, ret in R1. destruct (length content <? 4) eqn:Q4; [discriminate|].
    assert (Er : skipn 4 content = r) by congruence. clear R1. apply Nat.ltb_ge in Q4. apply (f_equal (@length N)) in Ef. rewrite firstn_length in Ef.
    subst r. rewrite skipn_length in Q, Ef. change (length magic) with 18 in Ef. lia.
Qed.

(** Beginning to write the magic over a blank head: accepted only when all of it is there. *)
Lemma partial_magic k tail : k < length (wBytes (Some magic)) ->
  open_graph (Some (overwrite (wBytes (Some blank) ++ tail) 0 (firstn k (wBytes (Some magic))))) = None.
Proof.
  intros L. change (length (wBytes (Some magic))) with 22 in L.
  assert (Hm : wBytes (Some magic) = wU32 18 ++ magic) by reflexivity. assert (Hb : wBytes (Some blank) = wU32 18 ++ blank) by reflexivity.
  do 22 (destruct k as [|k]; [vm_compute; reflexivity|]). lia.
Qed.
Lemma whole_magic tail : overwrite (wBytes (Some blank) ++ tail) 0 (wBytes (Some magic)) = wBytes (Some magic) ++ tail.
Proof. reflexivity. Qed.

(** ** Theorems *)

(** However saving ends - with success, with an error reported, or because the process was killed at any point - the file is
    the old one untouched, or absent or refused by the next load, or the complete new one.  After success it is the
    complete new one. *)
Theorem interrupted_save old head body o :
  let (f, r) := save old head body o in
  (f = old \/ open_graph f = None \/ f = Some (complete head body))
  /\ (r = Saved -> f = Some (complete head body)).
Proof.
  unfold save. destruct (killed_at o 0); [split; [now left|discriminate]|].
    destruct (match old with Some _ => negb (o_remove o) | None => false end); [split; [now left|discriminate]|].
    destruct (killed_at o 1); [split; [right; now left|discriminate]|].
    destruct (o_open o); cbn [negb]; [|split; [right; now left|discriminate]].
    destruct (write_chunks [] 0 (wBytes (Some blank) :: head :: body) (o_chunks o)) as [[c p] os] eqn:E.
    destruct (write_chunks_end _ [] _ _ _ _ E) as (tail & -> & G & more & M). cbn [app] in *.
    assert (Ref : open_graph (Some tail) = None).
    { cbn [concat] in M. exact (blank_refused _ _ _ M). }
    destruct p; [|split; [right; now left|discriminate]|split; [right; now left|discriminate]].
    specialize (G eq_refl). clear M more.
    destruct (killed_at o 2); [split; [right; now left|discriminate]|]. cbn [concat] in G. subst tail. cbn [write_chunks].
    destruct (match os with [] => (Full, []) | o :: os => (o, os) end) as [oc os1].
    assert (Done_ : forall f r, (f = Some (complete head body) \/ f = None) -> (r = Saved -> f = Some (complete head body)) ->
                    (f = old \/ open_graph f = None \/ f = Some (complete head body)) /\ (r = Saved -> f = Some (complete head body))).
    { intros f r [-> | ->] K; split; auto. }
    assert (End_ : let (f, r) := if killed_at o 3 then (Some (complete head body), Crashed)
              else if o_flush o then (Some (complete head body), Saved)
              else if killed_at o 4 then (Some (complete head body), Crashed)
              else (if o_cleanup o then None else Some (complete head body), Failed) in
              (f = old \/ open_graph f = None \/ f = Some (complete head body)) /\ (r = Saved -> f = Some (complete head body))).
    { destruct (killed_at o 3); [apply Done_; auto|]. destruct (o_flush o); [apply Done_; auto|].
      destruct (killed_at o 4); [apply Done_; auto|]. destruct (o_cleanup o); apply Done_; auto; discriminate. }
    destruct oc as [ |k|k]; cbn [write_chunk].
    - rewrite whole_magic. exact End_.
    - destruct (Nat.ltb_spec k (length (wBytes (Some magic)))) as [L|L].
      + split; [right; left; now apply partial_magic|discriminate].
      + rewrite firstn_all2 by lia. rewrite whole_magic. exact End_.
    - destruct (Nat.lt_ge_cases k (length (wBytes (Some magic)))) as [L|L].
      + split; [right; left; now apply partial_magic|discriminate].
      + rewrite firstn_all2 by lia. rewrite whole_magic. apply Done_; auto; discriminate.
Qed.

(** With everything above: a load after an interrupted save fails, or sees the old graph, or reads exactly the values and objects
    that were to be saved. *)
Theorem load_after_save old (rc : reader unit) head body o classes own H strict n l st w :
  reads rc head tt -> heap_ok classes own H strict -> Forall (typed own H strict) l ->
  store_all classes n H l = Done (st, w) -> concat body = w ->
  let f := fst (save old head body o) in
  f = old \/ open_graph f = None
  \/ exists r1 r2 vs ld names, open_graph f = Some r1 /\ rc r1 = Some (tt, r2)
       /\ load_all classes n (map fst l) r2 = Done (vs, ld, [])
       /\ NoDup names /\ Forall2 (fun x v => same strict names (snd x) v) l vs
       /\ l_next ld = length names /\ forall i, i < length names -> same_object H strict names ld i.
Proof.
  intros Rc HH Tl E Eb. pose proof (interrupted_save old head body o) as I. destruct (save old head body o) as [f r]. cbn [fst].
  destruct I as [[K|[K|K]] _]; [now left|right; now left|right; right].
  destruct (graph_roundtrip classes own H strict n l st w [] HH Tl E) as (vs & ld & names & G & Nd & Sm & Nx & Ob).
  exists (head ++ concat body), (concat body), vs, ld, names. subst f.
  split; [|split; [|split; [|auto]]].
  - assert (Q : rBytes (complete head body) = Some (Some magic, head ++ concat body)).
    { exact (reads_Bytes (Some magic) ltac:(reflexivity) (head ++ concat body)). }
    unfold open_graph. rewrite Q. now rewrite str_eqb_refl.
  - apply Rc.
  - rewrite Eb, <- (app_nil_r w). exact G.
Qed.

(** The old graph is gone as soon as saving begins: killing the process can leave no usable graph where there was one. *)
Theorem old_graph_kept_refuted : exists old head body o,
  open_graph old <> None /\ snd (save old head body o) = Crashed /\ open_graph (fst (save old head body o)) = None.
Proof.
  exists (Some (complete [] [])), [], [], (Build_oracle true true [] true true (Some 2)).
  split; [vm_compute; discriminate|]. split; vm_compute; reflexivity.
Qed.

(** FileSaver: in every state that the process can be killed in, the file has its old contents or the new ones - or is missing,
    with the new contents in the temporary file, on systems where a file cannot be renamed onto an existing one. *)
Theorem saver_never_mixes over old w new o w' :
  let '(trace, final, r) := commit over old w new o in
  In w' (trace ++ [final]) ->
  target w' = target w \/ target w' = Some new
  \/ (v_rename o = Exists /\ target w' = None /\ temp w' = Some new).
Proof.
  unfold commit. destruct (negb over && str_eqb old new); [intros [<-|[]]; now left|].
  destruct (v_open o); cbn [negb]; [|intros [<-|[]]; now left].
  set (n := Nat.min (v_written o) (length new)).
  assert (T : forall x, In x (writing w new n) -> target x = target w).
  { intros x Hx. unfold writing in Hx. apply in_map_iff in Hx. destruct Hx as (k & <- & _). reflexivity. }
  destruct (Nat.ltb_spec n (length new)) as [L|L]; cbn [orb].
  { intros Hx. apply in_app_or in Hx. destruct Hx as [Hx|[<-|[]]]; left; auto. }
  destruct (v_close o); cbn [negb]; [|intros Hx; apply in_app_or in Hx; destruct Hx as [Hx|[<-|[]]]; left; auto].
  assert (Fn : firstn n new = new) by (apply firstn_all2; lia).
  destruct (v_rename o).
  - intros Hx. apply in_app_or in Hx. destruct Hx as [Hx|[<-|[]]]; [left; auto|]. right. left. cbn. now rewrite Fn.
  - destruct (v_unlink o); cbn [negb]; [|intros Hx; apply in_app_or in Hx; destruct Hx as [Hx|[<-|[]]]; left; auto].
    destruct (v_rename2 o); intros Hx; apply in_app_or in Hx; destruct Hx as [Hx|[<-|[]]];
      try (apply in_app_or in Hx; destruct Hx as [Hx|[<-|[]]]); auto; cbn; rewrite Fn; auto.
  - intros Hx; apply in_app_or in Hx; destruct Hx as [Hx|[<-|[]]]; left; auto.
Qed.

(** After a successful commit the file has exactly the new contents and no temporary file of this saver is left behind - or
    the contents are those that the file had when it was opened, and then nothing was touched. *)
Theorem saver_result over f w new o :
  let '(trace, final, r) := commit over (old_contents over f) w new o in
  (r = true -> (target final = Some new /\ temp final = None) \/ (over = false /\ old_contents over f = new /\ final = w /\ trace = []))
  /\ (over = false -> f = Some new -> trace = [] /\ final = w /\ r = true)
  /\ (f = target w -> r = true -> (exists s, f = Some s) \/ new <> [] \/ over = true -> target final = Some new).
Proof.
  unfold commit. destruct (negb over && str_eqb (old_contents over f) new) eqn:B.
  { apply andb_true_iff in B. destruct B as [B1 B2]. apply negb_true_iff in B1. apply str_eqb_eq in B2. subst over. cbn in *.
    split; [intros _; right; auto|]. split; [auto|]. intros Ef _ K. rewrite <- Ef.
    destruct K as [[s Es]|[Hn|[=]]]; [rewrite Es in *; cbn in B2; congruence|].
    destruct f as [s|]; cbn in B2; congruence. }
  assert (U : over = false -> f = Some new -> False).
  { intros -> ->. cbn in B. now rewrite str_eqb_refl in B. }
  assert (W : forall (t : list world) (x : world) (r : bool), (r = true -> target x = Some new /\ temp x = None) ->
     (r = true -> (target x = Some new /\ temp x = None) \/ (over = false /\ old_contents over f = new /\ x = w /\ t = []))
     /\ (over = false -> f = Some new -> t = [] /\ x = w /\ r = true)
     /\ (f = target w -> r = true -> (exists s, f = Some s) \/ new <> [] \/ over = true -> target x = Some new)).
  { intros t x r K. split; [auto|]. split; [intros; exfalso; auto|]. intros _ E _. now apply K. }
  destruct (v_open o); cbn [negb]; [|apply W; discriminate].
  set (n := Nat.min (v_written o) (length new)).
  destruct (Nat.ltb_spec n (length new)) as [L|L]; cbn [orb]; [apply W; discriminate|].
  destruct (v_close o); cbn [negb]; [|apply W; discriminate].
  assert (Fn : firstn n new = new) by (apply firstn_all2; lia).
  destruct (v_rename o); [apply W; cbn; now rewrite Fn| |apply W; discriminate].
  destruct (v_unlink o); cbn [negb]; [|apply W; discriminate].
  destruct (v_rename2 o); apply W; cbn; [now rewrite Fn|discriminate].
Qed.

(** A commit of empty contents to a file that does not exist reports success without creating it. *)
Theorem saver_creates_refuted : exists w o, target w = None /\
  commit false (old_contents false (target w)) w [] o = ([], w, true).
Proof. exists (mkW None None), (Build_saver_oracle true 0 true Renamed true true). split; reflexivity. Qed.

(** ** Examples *)

Module Demo.
  (** Saving over an old graph, killed after 30 bytes of the third chunk; killed after 10 bytes of the magic; and not killed. *)
  Definition body : list str := [[1; 2; 3]%N; [4; 5]%N].
  Definition o1 (l : list outcome) := Build_oracle true true l true true None.
  Example killed_in_body : save (Some (complete [] [])) [9%N] body (o1 [Full; Full; Killed 2])
    = (Some (wBytes (Some blank) ++ [9; 1; 2]%N), Crashed). Proof. vm_compute. reflexivity. Qed.
  Example killed_in_magic : open_graph (fst (save None [9%N] body (o1 [Full; Full; Full; Full; Killed 21]))) = None.
  Proof. vm_compute. reflexivity. Qed.
  Example saved : save None [9%N] body (o1 []) = (Some (complete [9%N] body), Saved) /\ open_graph (Some (complete [9%N] body)) = Some [9; 1; 2; 3; 4; 5]%N.
  Proof. split; vm_compute; reflexivity. Qed.
  Example replaced : commit false [1%N] (mkW (Some [1%N]) None) [2; 3]%N (Build_saver_oracle true 5 true Exists true true)
    = ([mkW (Some [1%N]) (Some []); mkW (Some [1%N]) (Some [2%N]); mkW (Some [1%N]) (Some [2; 3]%N); mkW None (Some [2; 3]%N)], mkW (Some [2; 3]%N) None, true).
  Proof. reflexivity. Qed.
End Demo.

Print Assumptions interrupted_save.
Print Assumptions load_after_save.
Print Assumptions old_graph_kept_refuted.
Print Assumptions saver_never_mixes.
Print Assumptions saver_result.
Print Assumptions saver_creates_refuted.
