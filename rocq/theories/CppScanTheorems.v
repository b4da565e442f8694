(** Theorems about the scanner for C++ files. *)
From Coq Require Import List Bool Arith NArith String Ascii Lia.
From Verif Require Import Str CppScanModel CppScanLexer.
Import ListNotations.
Local Open Scope N_scope.
Local Open Scope list_scope.

(** ** The lines of a file, as C++ defines them *)

(** Words that are not identifiers: C++ and C keywords and the alternative tokens; [_declspec] is one for Microsoft's compiler. *)
Definition cpp_keywords : list str := map lit
  ["alignas"; "alignof"; "and"; "and_eq"; "asm"; "auto"; "bitand"; "bitor"; "bool"; "break"; "case"; "catch"; "char";
   "char8_t"; "char16_t"; "char32_t"; "class"; "compl"; "concept"; "const"; "consteval"; "constexpr"; "constinit"; "const_cast";
   "continue"; "co_await"; "co_return"; "co_yield"; "decltype"; "default"; "delete"; "do"; "double"; "dynamic_cast"; "else";
   "enum"; "explicit"; "export"; "extern"; "false"; "float"; "for"; "friend"; "goto"; "if"; "inline"; "int"; "long"; "mutable";
   "namespace"; "new"; "noexcept"; "not"; "not_eq"; "nullptr"; "operator"; "or"; "or_eq"; "private"; "protected"; "public";
   "register"; "reinterpret_cast"; "requires"; "return"; "short"; "signed"; "sizeof"; "static"; "static_assert"; "static_cast";
   "struct"; "switch"; "template"; "this"; "thread_local"; "throw"; "true"; "try"; "typedef"; "typeid"; "typename"; "typeof"; "union";
   "unsigned"; "using"; "virtual"; "void"; "volatile"; "wchar_t"; "while"; "xor"; "xor_eq"; "_declspec"]%string.
(** A name.  Those with two underscores at the beginning belong to the compiler. *)
Definition identifier (w : list ch) : Prop :=
  w <> [] /\ Forall (fun c => wordc (code c)) w /\ ~ digit (first w)
  /\ ~ In (List.concat w) cpp_keywords /\ (forall t, List.concat w <> 95 :: 95 :: t).
(** [a.b.c]: the first name, and for every other one the gaps before and after the dot. *)
Record dotted := { d_head : list ch; d_rest : list (list gap * list gap * list ch) }.
Definition dotted_text (d : dotted) : src :=
  d_head d ++ flat_map (fun x => gaps_text (fst (fst x)) ++ [[46]] ++ gaps_text (snd (fst x)) ++ snd x) (d_rest d).
Definition dotted_name (d : dotted) : str := List.concat (d_head d) ++ flat_map (fun x => 46 :: List.concat (snd x)) (d_rest d).
Definition dotted_ok (d : dotted) : Prop :=
  identifier (d_head d) /\ Forall (fun x => Forall gap_ok (fst (fst x)) /\ Forall gap_ok (snd (fst x)) /\ identifier (snd x)) (d_rest d).

(** What is imported: a module, a partition of the module that the file belongs to, a header without a path in its name. *)
Inductive import := IName (d : dotted) | IPart (g : list gap) (w : list ch) | IHeader (g1 : list gap) (d : dotted) (g2 : list gap).
Inductive line :=
(* code, or nothing *)
| LCode (g : list gap) (ps : list piece) (e : ending)
(* a directive that is not about including, with something after the [#] *)
| LDirective (g1 : list gap) (hash : src) (g2 : list gap) (ps : list piece) (e : ending)
(* [#include] or [#import] with a name in quotes or between angle brackets *)
| LInclude (g1 : list gap) (hash : src) (g2 : list gap) (kw : string) (g3 : list gap) (quoted : bool) (name : list ch) (ps : list piece) (e : ending)
(* something exported, but neither a module nor an import *)
| LExport (g1 g2 : list gap) (ps : list piece) (e : ending)
(* [module;] and [module :private;] *)
| LFragment (g1 g2 : list gap) (ps : list piece) (e : ending)
(* [export module a.b:p;] *)
| LModule (g1 : list gap) (ex : option (list gap)) (g2 : list gap) (d : dotted) (part : option (list gap * list gap * list ch)) (g3 : list gap) (ps : list piece) (e : ending)
(* [export import x;] *)
| LImport (g1 : list gap) (ex : option (list gap)) (g2 : list gap) (i : import) (g3 : list gap) (ps : list piece) (e : ending).

Definition word (s : string) : src := map (fun b => [b]) (lit s).
Definition export_text (ex : option (list gap)) : src := match ex with None => [] | Some g => word "export" ++ gaps_text g end.
Definition part_text (p : option (list gap * list gap * list ch)) : src :=
  match p with None => [] | Some (a, b, w) => gaps_text a ++ [[58]] ++ gaps_text b ++ w end.
Definition import_text (i : import) : src :=
  match i with
  | IName d => dotted_text d
  | IPart g w => [[58]] ++ gaps_text g ++ w
  | IHeader g1 d g2 => [[60]] ++ gaps_text g1 ++ dotted_text d ++ gaps_text g2 ++ [[62]]
  end.
Definition line_text (l : line) : src :=
  match l with
  | LCode g ps e => gaps_text g ++ text ps e
  | LDirective g1 hash g2 ps e => gaps_text g1 ++ hash ++ gaps_text g2 ++ text ps e
  | LInclude g1 hash g2 kw g3 quoted name ps e =>
      gaps_text g1 ++ hash ++ gaps_text g2 ++ word kw ++ gaps_text g3
        ++ (if quoted then [[34]] ++ name ++ [[34]] else [[60]] ++ name ++ [[62]]) ++ text ps e
  | LExport g1 g2 ps e => gaps_text g1 ++ word "export" ++ gaps_text g2 ++ text ps e
  | LFragment g1 g2 ps e => gaps_text g1 ++ word "module" ++ gaps_text g2 ++ text ps e
  | LModule g1 ex g2 d p g3 ps e =>
      gaps_text g1 ++ export_text ex ++ word "module" ++ gaps_text g2 ++ dotted_text d ++ part_text p ++ gaps_text g3 ++ [[59]] ++ text ps e
  | LImport g1 ex g2 i g3 ps e =>
      gaps_text g1 ++ export_text ex ++ word "import" ++ gaps_text g2 ++ import_text i ++ gaps_text g3 ++ [[59]] ++ text ps e
  end.
(** The file: the lines without the newline before the first one. *)
Definition lines_text (ls : list line) : src := flat_map (fun l => [10] :: line_text l) ls.
Definition file_text (ls : list line) : str := List.concat (tl (lines_text ls)).

(** The text starts with the word [w]. *)
Definition begins (w : string) (s : src) : Prop :=
  exists l rest, s = l ++ rest /\ List.concat l = lit w /\ Forall (fun c => wordc (code c)) l /\ ~ wordc (first rest).
(** Gaps at the beginning of a line: without backslash and newline. *)
Definition indent_ok (g : list gap) : Prop := Forall gap_ok g /\ ~ In Splice g.
Definition hash_ok (hash : src) : Prop := hash = [[35]] \/ hash = [[37]; [58]].
Definition something (ps : list piece) : Prop := match ps with [] | Gap _ :: _ => False | _ => True end.
Definition line_ok (l : line) : Prop :=
  match l with
  | LCode g ps e => indent_ok g /\ pieces_ok [] ps e /\ (ps = [] \/ something ps) /\ first (text ps e) <> 35
      /\ ~ begins "module" (text ps e) /\ ~ begins "import" (text ps e) /\ ~ begins "export" (text ps e)
  | LDirective g1 hash g2 ps e => indent_ok g1 /\ hash_ok hash /\ Forall gap_ok g2 /\ pieces_ok [] ps e /\ something ps
      /\ first (text ps e) <> 35 /\ first (text ps e) <> 37 /\ ~ begins "include" (text ps e) /\ ~ begins "import" (text ps e)
  | LInclude g1 hash g2 kw g3 quoted name ps e => indent_ok g1 /\ hash_ok hash /\ Forall gap_ok g2 /\ Forall gap_ok g3
      /\ (kw = "include" \/ kw = "import")%string /\ (List.length (List.concat name) + 2 < N.to_nat 65536)%nat
      /\ Forall (fun c => code c <> 10 /\ if quoted then code c <> 34 /\ code c <> 92 else code c <> 62) name
      /\ pieces_ok [if quoted then 34 else 62] ps e
  | LExport g1 g2 ps e => indent_ok g1 /\ g2 <> [] /\ Forall gap_ok g2 /\ pieces_ok [] ps e /\ something ps
      /\ ~ begins "module" (text ps e) /\ ~ begins "import" (text ps e)
  | LFragment g1 g2 ps e => indent_ok g1 /\ Forall gap_ok g2 /\ pieces_ok [] ps e /\ something ps
      /\ (first (text ps e) = 59 \/ first (text ps e) = 58)
  | LModule g1 ex g2 d p g3 ps e => indent_ok g1 /\ (forall g, ex = Some g -> g <> [] /\ Forall gap_ok g) /\ g2 <> [] /\ Forall gap_ok g2
      /\ dotted_ok d /\ (forall a b w, p = Some (a, b, w) -> Forall gap_ok a /\ Forall gap_ok b /\ identifier w)
      /\ Forall gap_ok g3 /\ pieces_ok [59] ps e
  | LImport g1 ex g2 i g3 ps e => indent_ok g1 /\ (forall g, ex = Some g -> g <> [] /\ Forall gap_ok g) /\ Forall gap_ok g2
      /\ match i with
         | IName d => g2 <> [] /\ dotted_ok d
         | IPart g w => Forall gap_ok g /\ identifier w
         | IHeader a d b => Forall gap_ok a /\ dotted_ok d /\ Forall gap_ok b
         end
      /\ Forall gap_ok g3 /\ pieces_ok [59] ps e
  end.

(** What the lines say: the included files, [true] for those in quotes; the module that the file belongs to; whether it is an
    interface; the modules that it needs. *)
Definition included (l : line) : list (bool * str) :=
  match l with LInclude _ _ _ _ _ quoted name _ _ => [(quoted, List.concat name)] | _ => [] end.
Definition part_name (p : option (list gap * list gap * list ch)) : str := match p with None => [] | Some (_, _, w) => 58 :: List.concat w end.
Definition declared (l : line) : option str := match l with LModule _ _ _ d p _ _ _ => Some (dotted_name d ++ part_name p) | _ => None end.
Fixpoint last_declared (cur : option str) (ls : list line) : option str :=
  match ls with [] => cur | l :: ls => last_declared (match declared l with None => cur | m => m end) ls end.
Definition is_interface (l : line) : bool := match l with LModule _ (Some _) _ _ _ _ _ _ => true | _ => false end.
(** [cur] is the module so far, without the partition. *)
Fixpoint needed (cppm : bool) (cur : option str) (ls : list line) : list str :=
  match ls with
  | [] => []
  | LModule _ _ _ d p _ _ _ :: ls => (if cppm then [] else [dotted_name d ++ part_name p]) ++ needed cppm (Some (dotted_name d)) ls
  | LImport _ _ _ (IName d) _ _ _ :: ls => dotted_name d :: needed cppm cur ls
  | LImport _ _ _ (IHeader _ d _) _ _ _ :: ls => (60 :: dotted_name d ++ [62]) :: needed cppm cur ls
  | LImport _ _ _ (IPart _ w) _ _ _ :: ls =>
      match cur with Some m => [m ++ 58 :: List.concat w] | None => [] end ++ needed cppm cur ls
  | _ :: ls => needed cppm cur ls
  end.

(** ** The scanner goes from line to line *)

Lemma module_name_more f : forall f' m p x, module_name f m p = Some x -> (f <= f')%nat -> module_name f' m p = Some x.
Proof.
  induction f as [|f IH]; intros f' m p x E L; [discriminate|]. destruct f' as [|f']; [lia|]. cbn [module_name] in *.
  destruct (has_kind TEof (p_tok p) || has_kind TSemi (p_tok p)); auto. destruct (next p) as [q|]; [|discriminate].
  destruct (has_kind TDot (p_tok q)); [destruct (next q); [|discriminate]; apply IH; auto; lia|].
  destruct (has_kind TColon (p_tok q)); auto. apply IH; auto. lia.
Qed.
Lemma import_name_more f : forall f' m p x, import_name f m p = Some x -> (f <= f')%nat -> import_name f' m p = Some x.
Proof.
  induction f as [|f IH]; intros f' m p x E L; [discriminate|]. destruct f' as [|f']; [lia|]. cbn [import_name] in *.
  destruct (has_kind TEof (p_tok p) || has_kind TSemi (p_tok p) || has_kind TGreater (p_tok p)); auto. destruct (next p) as [q|]; [|discriminate].
  destruct (has_kind TDot (p_tok q)); [destruct (next q); [|discriminate]; apply IH; auto; lia|]. apply IH; auto. lia.
Qed.
Lemma parse_module_more f f' ft p r x : parse_module f ft p r = Some x -> (f <= f')%nat -> parse_module f' ft p r = Some x.
Proof.
  unfold parse_module. intros E L. destruct (module_name f (t_text (p_tok p)) p) as [y|] eqn:M; [|discriminate].
  now rewrite (module_name_more _ _ _ _ _ M L).
Qed.
Lemma parse_import_more f f' p r x : parse_import f p r = Some x -> (f <= f')%nat -> parse_import f' p r = Some x.
Proof.
  unfold parse_import. intros E L. destruct (has_kind TColon (p_tok p)); auto.
  destruct (if has_kind TLess (p_tok p) then next p else Some p) as [q|]; auto. destruct (has_kind TIdent (p_tok q)); auto.
  destruct (import_name f (t_text (p_tok q)) q) as [y|] eqn:M; [|discriminate]. now rewrite (import_name_more _ _ _ _ _ M L).
Qed.
Lemma line_start_more f f' ft p r x : line_start f ft p r = Some x -> (f <= f')%nat -> line_start f' ft p r = Some x.
Proof.
  unfold line_start. intros E L.
  assert (PM : forall q (k : option (pos * result) -> option (pos * result + pos)), k None = None -> k (parse_module f ft q r) = Some x -> k (parse_module f' ft q r) = Some x).
  { intros q k KN K. destruct (parse_module f ft q r) eqn:P; [|congruence]. now rewrite (parse_module_more _ _ _ _ _ _ P L). }
  assert (PI : forall q (k : option (pos * result) -> option (pos * result + pos)), k None = None -> k (parse_import f q r) = Some x -> k (parse_import f' q r) = Some x).
  { intros q k KN K. destruct (parse_import f q r) eqn:P; [|congruence]. now rewrite (parse_import_more _ _ _ _ _ P L). }
  destruct (equals (p_tok p) "module").
  { destruct (next p) as [q|]; auto. destruct (has_kind TIdent (p_tok q)); auto. apply (PM q (fun y => match y with None => None | Some z => Some (inl z) end)); auto. }
  destruct (equals (p_tok p) "import").
  { destruct (next p) as [q|]; auto. apply (PI q (fun y => match y with None => None | Some z => Some (inl z) end)); auto. }
  destruct (equals (p_tok p) "export"); auto. destruct (next p) as [q|]; auto.
  destruct (equals (p_tok q) "module").
  { destruct (next q) as [q'|]; auto. apply (PM q' (fun y => match y with None => None | Some (p0, r0) => Some (inl (p0, set_interface r0)) end)); auto. }
  destruct (equals (p_tok q) "import"); auto. destruct (next q) as [q'|]; auto.
  apply (PI q' (fun y => match y with None => None | Some z => Some (inl z) end)); auto.
Qed.
Lemma loop_more f : forall f' ft tags deps p r x, loop f ft tags deps p r = Some x -> (f <= f')%nat -> loop f' ft tags deps p r = Some x.
Proof.
  induction f as [|f IH]; intros f' ft tags deps p r x E L; [discriminate|]. destruct f' as [|f']; [lia|]. cbn [loop] in *.
  assert (LE : (f <= f')%nat) by lia. destruct (has_kind TEof (p_tok p)); auto.
  destruct (deps && t_newline (p_tok p) && has_kind TIdent (p_tok p)).
  - destruct (line_start f ft p r) as [y|] eqn:LS; [|discriminate]. rewrite (line_start_more _ _ _ _ _ _ LS LE). destruct y as [[q r']|q]; [now apply IH|].
    destruct (t_newline (p_tok q) && has_kind TPound (p_tok q)).
    + destruct (directive deps q r) as [[q1 r1]|]; auto. destruct (next q1); auto.
    + destruct (if has_kind TIdent (p_tok q) && tags then macros ft deps q r else (r, false)) as [r1 b]. destruct b; auto. destruct (next q); auto.
  - destruct (t_newline (p_tok p) && has_kind TPound (p_tok p)).
    + destruct (directive deps p r) as [[q1 r1]|]; auto. destruct (next q1); auto.
    + destruct (if has_kind TIdent (p_tok p) && tags then macros ft deps p r else (r, false)) as [r1 b]. destruct b; auto. destruct (next p); auto.
Qed.

Lemma kind_iff k t : has_kind k t = true <-> t_kind t = k.
Proof. unfold has_kind. destruct k, (t_kind t); split; congruence. Qed.
Lemma kind_no k t : has_kind k t = false <-> t_kind t <> k.
Proof. rewrite <- kind_iff. now destruct (has_kind k t). Qed.
Lemma equals_iff t w : equals t w = true <-> t_text t = lit w.
Proof. unfold equals. apply str_eqb_eq. Qed.
Lemma equals_no t w : equals t w = false <-> t_text t <> lit w.
Proof. rewrite <- equals_iff. now destruct (equals t w). Qed.

(** ** Words and punctuators *)
Definition stops (s : src) : Prop := ~ wordc (first s) /\ first s <> 34 /\ first s <> 39 /\ first s < 256.
Lemma drop_word w s : Forall (fun c => wordc (code c)) w -> ~ wordc (first s) -> first s < 256 -> drop_while is_word (w ++ s) = s.
Proof.
  intros F N L. induction F as [|c w W F IH]; cbn [List.app].
  - destruct s as [|c s]; [reflexivity|]. cbn [drop_while]. cbn [first] in N, L. rewrite lead_code. now rewrite (proj2 (word_no _ L) N).
  - cbn [drop_while]. rewrite lead_code. rewrite (proj2 (word_iff (code c) ltac:(unfold wordc, letter, digit in W; lia)) W). exact IH.
Qed.
Lemma word_not_quote n : wordc n -> n <> 34 /\ n <> 39 /\ n <> 92 /\ ~ white_c n.
Proof. unfold wordc, letter, digit, white_c, blank. lia. Qed.
Lemma after_word angle c w s : Forall (fun c => wordc (code c)) (c :: w) -> ~ digit (code c) -> ~ wordc (first s) -> first s < 256 ->
  (first s <> 34 /\ first s <> 39 \/ ~ prefix_char (code c)) -> after angle c (w ++ s) = Tok TIdent s.
Proof.
  intros F D N L Q. inversion F as [|? ? W F2]; subst.
  assert (DW : forall w', Forall (fun c => wordc (code c)) w' -> drop_while is_word (w' ++ s) = s) by (intros; now apply drop_word).
  assert (PQ : prefix_char (code c) -> forall w', Forall (fun c => wordc (code c)) w' -> peek (w' ++ s) <> 34 /\ peek (w' ++ s) <> 39).
  { intros P w' F'. rewrite peek_first. destruct w' as [|x w']; cbn [List.app]; [tauto|]. inversion F'; subst. cbn [first].
    destruct (word_not_quote (code x)) as (A & B & _); auto. }
  assert (TL : forall w', Forall (fun c => wordc (code c)) w' -> wordc (peek (w' ++ s)) -> exists x w'', w' = x :: w'' /\ Forall (fun c => wordc (code c)) w'').
  { intros w' F' P. destruct w' as [|x w'']; [cbn [List.app] in P; rewrite peek_first in P; contradiction|]. inversion F'; subst. eauto. }
  unfold after. cbv zeta. rewrite lead_code.
  assert (PU : forall x, ~ wordc x -> (code c =? x) = false) by (intros x X; apply N.eqb_neq; intros E; apply X; rewrite <- E; exact W).
  rewrite (PU 92), (PU 34), (PU 39), (PU 35), (PU 59), (PU 58), (PU 46), (PU 43), (PU 45), (PU 47), (PU 37), (PU 42), (PU 94), (PU 126), (PU 33), (PU 61), (PU 38), (PU 124), (PU 60), (PU 62) by (clear; unfold wordc, letter, digit; lia). cbn [orb].
  destruct (one_of [76; 117; 85; 82] (code c)) eqn:O.
  - assert (P : prefix_char (code c)). { unfold one_of in O. cbn [existsb] in O. rewrite !orb_true_iff, !N.eqb_eq in O. unfold prefix_char. intuition discriminate. }
    specialize (PQ P). clear Q. destruct (PQ w F2) as [Q1 Q2]. apply N.eqb_neq in Q1, Q2. rewrite Q1, Q2.
    destruct (negb (code c =? 82) && (peek (w ++ s) =? 82)) eqn:E1.
    { apply andb_true_iff in E1 as [_ E1]. apply N.eqb_eq in E1. destruct (TL w F2) as (x & w' & -> & F3); [rewrite E1; unfold wordc, letter; lia|]. cbn [List.app tl].
      destruct (PQ w' F3) as [Q3 _]. apply N.eqb_neq in Q3. rewrite Q3. now rewrite DW. }
    destruct ((code c =? 117) && (peek (w ++ s) =? 56)) eqn:E2; [|now rewrite DW].
    apply andb_true_iff in E2 as [_ E2]. apply N.eqb_eq in E2. destruct (TL w F2) as (x & w' & -> & F3); [rewrite E2; unfold wordc, digit; lia|]. cbn [List.app tl].
    destruct (PQ w' F3) as [Q3 Q4]. apply N.eqb_neq in Q3, Q4. rewrite Q3, Q4. destruct (peek (w' ++ s) =? 82) eqn:E3; [|now rewrite DW].
    apply N.eqb_eq in E3. destruct (TL w' F3) as (y & w'' & -> & F4); [rewrite E3; unfold wordc, letter; lia|]. cbn [List.app tl].
    destruct (PQ w'' F4) as [Q5 _]. apply N.eqb_neq in Q5. rewrite Q5. now rewrite DW.
  - assert (WB : code c < 256) by (unfold wordc, letter, digit in W; lia).
    assert (E : is_alpha (code c) || (code c =? 95) || (code c =? 36) || N.testbit (code c) 7 = true).
    { rewrite !orb_true_iff, !N.eqb_eq, alpha_iff, high_bit, N.leb_le by auto. destruct W as [W|[W|[W|[W|W]]]]; auto; [contradiction|]. right. lia. }
    rewrite E. now rewrite DW.
Qed.

Lemma keywords_known k : In k keywords -> In k cpp_keywords \/ exists t, k = 95 :: 95 :: t.
Proof.
  intros I. pose (p := fun k : str => existsb (str_eqb k) cpp_keywords || match k with a :: b :: _ => (a =? 95) && (b =? 95) | _ => false end).
  assert (F : forallb p keywords = true) by (vm_compute; reflexivity). rewrite forallb_forall in F. specialize (F k I). unfold p in F.
  apply orb_true_iff in F as [F|F].
  - left. apply existsb_exists in F as (x & X & E). apply str_eqb_eq in E. now subst.
  - right. destruct k as [|a [|b k]]; try discriminate. apply andb_true_iff in F as [A B]. apply N.eqb_eq in A, B. subst. eauto.
Qed.
Lemma identifier_keyword w : identifier w -> is_keyword (List.concat w) = false.
Proof.
  intros (_ & _ & _ & N & U). apply not_true_iff_false. intros K. apply existsb_exists in K as (x & X & E). apply str_eqb_eq in E. subst x.
  destruct (keywords_known _ X) as [I|[t E]]; [contradiction|]. apply (U t E).
Qed.
Definition wtok (nl : bool) (w s : src) : tok := {| t_kind := TIdent; t_newline := nl; t_text := List.concat w; t_from := List.concat (w ++ s) |}.
Lemma tk_word angle nl w s : w <> [] -> Forall (fun c => wordc (code c)) w -> ~ digit (first w) -> is_keyword (List.concat w) = false ->
  ~ wordc (first s) -> first s < 256 -> (first s <> 34 /\ first s <> 39 \/ ~ prefix_char (first w)) -> tokenize angle false nl (w ++ s) = (wtok nl w s, s).
Proof.
  intros NE F D K N L Q. destruct w as [|c w]; [congruence|]. cbn [first] in *. pose proof (after_word angle c w s F D N L Q) as A.
  inversion F as [|? ? W _]; subst. destruct (word_not_quote _ W) as (_ & _ & _ & NW).
  change ((c :: w) ++ s) with (c :: (w ++ s)). rewrite (tokenize_tok angle false nl c (w ++ s) TIdent s); auto; [|now apply not_white].
  f_equal. unfold make, wtok. change (c :: w ++ s) with ((c :: w) ++ s). rewrite firstn_app_exact. now rewrite K.
Qed.
Lemma tk_ident angle nl w s : identifier w -> stops s -> tokenize angle false nl (w ++ s) = (wtok nl w s, s).
Proof.
  intros I (S1 & S2 & S3 & S4). pose proof (identifier_keyword w I) as K. destruct I as (A & B & C & _). apply tk_word; auto.
Qed.
Lemma tk_punct angle nl c s k : is_space (lead c) = false -> after angle c s = Tok k s -> k <> TIdent ->
  exists t, tokenize angle false nl (c :: s) = (t, s) /\ t_kind t = k /\ t_newline t = nl.
Proof.
  intros W A N. exists (make k nl (c :: s) s). split; [now apply tokenize_tok|]. split; auto. unfold make. cbn. destruct k; congruence.
Qed.
Lemma first_gaps g s : Forall gap_ok g -> (g = [] /\ first (gaps_text g ++ s) = first s) \/ blank (first (gaps_text g ++ s)) \/ first (gaps_text g ++ s) = 92 \/ first (gaps_text g ++ s) = 47.
Proof.
  intros F. destruct F as [|x g G F]; [now left|right]. unfold gaps_text. cbn [flat_map]. destruct x; cbn [gap_text List.app first code] in *; auto.
Qed.
Lemma stops_gaps g s : Forall gap_ok g -> g <> [] \/ stops s -> stops (gaps_text g ++ s).
Proof.
  intros F H. destruct (first_gaps g s F) as [[-> E]|B]; [destruct H as [H|H]; [congruence|exact H]|]. unfold stops, wordc, letter, digit. unfold blank in B. lia.
Qed.
Ltac small := unfold stops, wordc, letter, digit, blank, identifier in *; cbn [first code List.app] in *; lia.
Definition dot_ok (s : src) : Prop := first s <> 42 /\ first s <> 46 /\ ~ digit (first s).
Lemma tk_dot nl s : dot_ok s -> exists t, tokenize false false nl ([46] :: s) = (t, s) /\ t_kind t = TDot /\ t_newline t = nl.
Proof.
  intros (A & B & C). apply tk_punct; [reflexivity| |discriminate]. unfold after. cbv zeta. rewrite !peek_first. change (lead [46]) with 46. apply N.eqb_neq in A, B.
  rewrite A, B. rewrite <- digit_iff in C. apply not_true_iff_false in C. rewrite C. reflexivity.
Qed.
Lemma tk_colon nl s : first s <> 58 -> first s <> 62 -> exists t, tokenize false false nl ([58] :: s) = (t, s) /\ t_kind t = TColon /\ t_newline t = nl.
Proof.
  intros A B. apply tk_punct; [reflexivity| |discriminate]. unfold after. cbv zeta. rewrite !peek_first. change (lead [58]) with 58. apply N.eqb_neq in A, B.
  rewrite A, B. reflexivity.
Qed.
Lemma tk_semi nl s : exists t, tokenize false false nl ([59] :: s) = (t, s) /\ t_kind t = TSemi /\ t_newline t = nl.
Proof. apply tk_punct; [reflexivity|reflexivity|discriminate]. Qed.
Lemma tk_less nl s : first s <> 60 -> first s <> 61 -> first s <> 37 -> first s <> 58 -> exists t, tokenize false false nl ([60] :: s) = (t, s) /\ t_kind t = TLess /\ t_newline t = nl.
Proof.
  intros A B C D. apply tk_punct; [reflexivity| |discriminate]. unfold after. cbv zeta. rewrite !peek_first. change (lead [60]) with 60. apply N.eqb_neq in A, B, C, D.
  rewrite A, B, C, D. reflexivity.
Qed.
Lemma tk_greater nl s : first s <> 62 -> first s <> 61 -> exists t, tokenize false false nl ([62] :: s) = (t, s) /\ t_kind t = TGreater /\ t_newline t = nl.
Proof.
  intros A B. apply tk_punct; [reflexivity| |discriminate]. unfold after. cbv zeta. rewrite !peek_first. change (lead [62]) with 62. apply N.eqb_neq in A, B.
  rewrite A, B. reflexivity.
Qed.
Lemma tk_hash nl hash s : hash_ok hash -> first s <> 35 -> first s <> 37 -> exists t, tokenize false false nl (hash ++ s) = (t, s) /\ t_kind t = TPound /\ t_newline t = nl.
Proof.
  intros [-> | ->] A B.
  - apply tk_punct; [reflexivity| |discriminate]. unfold after. cbv zeta. rewrite !peek_first. change (lead [35]) with 35. apply N.eqb_neq in A. rewrite A. reflexivity.
  - exists (make TPound nl ([37] :: [58] :: s) s). split; [|split; reflexivity]. apply (tokenize_tok false false nl [37] ([58] :: s)); [reflexivity|].
    unfold after. cbv zeta. change (lead [37]) with 37. change (peek ([58] :: s)) with 58. cbn [tl]. rewrite peek_first. apply N.eqb_neq in B. rewrite B. reflexivity.
Qed.

(** Names of modules. *)
Definition rest_text (l : list (list gap * list gap * list ch)) : src := flat_map (fun x => gaps_text (fst (fst x)) ++ [[46]] ++ gaps_text (snd (fst x)) ++ snd x) l.
Definition rest_name (l : list (list gap * list gap * list ch)) : str := flat_map (fun x => 46 :: List.concat (snd x)) l.
Definition rest_ok (l : list (list gap * list gap * list ch)) : Prop := Forall (fun x => Forall gap_ok (fst (fst x)) /\ Forall gap_ok (snd (fst x)) /\ identifier (snd x)) l.
Lemma stops_dot s : stops ([46] :: s).
Proof. small. Qed.
Lemma stops_rest l s : rest_ok l -> stops s -> stops (rest_text l ++ s).
Proof.
  intros F S. destruct F as [|[[a b] w] l (G1 & G2 & I) F]; [exact S|]. cbn [rest_text flat_map fst snd]. rewrite <- !app_assoc. apply stops_gaps; auto. right. apply stops_dot.
Qed.
Lemma first_ident w s : identifier w -> first (w ++ s) = first w /\ wordc (first w) /\ ~ digit (first w).
Proof. intros (A & B & C & _). destruct w; [congruence|]. inversion B; subst. cbn [first List.app]. auto. Qed.
Lemma dot_gap_ident g w s : Forall gap_ok g -> identifier w -> dot_ok (gaps_text g ++ w ++ s).
Proof.
  intros F I. destruct (first_ident w s I) as (E & W & D). unfold dot_ok. destruct (first_gaps g (w ++ s) F) as [[-> ->]|B]; [rewrite E|]; small.
Qed.
Lemma tk_gaps angle g s : Forall gap_ok g -> tokenize angle false false (gaps_text g ++ s) = tokenize angle false false s.
Proof. intros F. apply tokenize_gaps; auto. discriminate. Qed.
Lemma next_tok t0 old s t s' : tokenize false false false s = (t, s') ->
  next {| p_tok := t0; p_old := old; p_src := s |} = Some {| p_tok := t; p_old := t0; p_src := s' |}.
Proof. intros E. unfold next. cbn [p_src p_tok]. now rewrite lex_tokenize, E. Qed.

Lemma module_rest l s sfx T s' : rest_ok l -> stops s ->
  (forall m t old, t_kind t = TIdent -> exists f o, module_name f m {| p_tok := t; p_old := old; p_src := s |} = Some (m ++ sfx, {| p_tok := T; p_old := o; p_src := s' |})) ->
  forall m t old, t_kind t = TIdent ->
    exists f o, module_name f m {| p_tok := t; p_old := old; p_src := rest_text l ++ s |} = Some (m ++ rest_name l ++ sfx, {| p_tok := T; p_old := o; p_src := s' |}).
Proof.
  intros F ST B. induction F as [|[[a b] w] l (G1 & G2 & I) F IH]; intros m t old K; [now apply B|].
  cbn [fst snd] in *. cbn [rest_text rest_name flat_map fst snd]. fold (rest_text l) (rest_name l). rewrite <- !app_assoc.
  destruct (tk_dot false (gaps_text b ++ w ++ rest_text l ++ s)) as (d & TD & KD & _); [now apply dot_gap_ident|].
  destruct (IH (m ++ 46 :: List.concat w) (wtok false w (rest_text l ++ s)) d eq_refl) as (f & o & E).
  exists (S f), o. cbn [module_name p_tok]. rewrite (proj2 (kind_no TEof t)), (proj2 (kind_no TSemi t)) by congruence. cbn [orb].
  rewrite (next_tok t old _ d (gaps_text b ++ w ++ rest_text l ++ s)) by (rewrite tk_gaps by auto; exact TD). cbn [p_tok].
  rewrite (proj2 (kind_iff TDot d) KD).
  rewrite (next_tok d t _ (wtok false w (rest_text l ++ s)) (rest_text l ++ s)) by (rewrite tk_gaps by auto; apply tk_ident; auto using stops_rest).
  cbn [p_tok wtok t_text]. rewrite E. f_equal. f_equal. cbn [List.app]. now rewrite <- app_assoc.
Qed.
Lemma import_rest l s sfx T s' : rest_ok l -> stops s ->
  (forall m t old, t_kind t = TIdent -> exists f o, import_name f m {| p_tok := t; p_old := old; p_src := s |} = Some (m ++ sfx, {| p_tok := T; p_old := o; p_src := s' |})) ->
  forall m t old, t_kind t = TIdent ->
    exists f o, import_name f m {| p_tok := t; p_old := old; p_src := rest_text l ++ s |} = Some (m ++ rest_name l ++ sfx, {| p_tok := T; p_old := o; p_src := s' |}).
Proof.
  intros F ST B. induction F as [|[[a b] w] l (G1 & G2 & I) F IH]; intros m t old K; [now apply B|].
  cbn [fst snd] in *. cbn [rest_text rest_name flat_map fst snd]. fold (rest_text l) (rest_name l). rewrite <- !app_assoc.
  destruct (tk_dot false (gaps_text b ++ w ++ rest_text l ++ s)) as (d & TD & KD & _); [now apply dot_gap_ident|].
  destruct (IH (m ++ 46 :: List.concat w) (wtok false w (rest_text l ++ s)) d eq_refl) as (f & o & E).
  exists (S f), o. cbn [import_name p_tok]. rewrite (proj2 (kind_no TEof t)), (proj2 (kind_no TSemi t)), (proj2 (kind_no TGreater t)) by congruence. cbn [orb].
  rewrite (next_tok t old _ d (gaps_text b ++ w ++ rest_text l ++ s)) by (rewrite tk_gaps by auto; exact TD). cbn [p_tok].
  rewrite (proj2 (kind_iff TDot d) KD).
  rewrite (next_tok d t _ (wtok false w (rest_text l ++ s)) (rest_text l ++ s)) by (rewrite tk_gaps by auto; apply tk_ident; auto using stops_rest).
  cbn [p_tok wtok t_text]. rewrite E. f_equal. f_equal. cbn [List.app]. now rewrite <- app_assoc.
Qed.
(** The ends of names. *)
Lemma module_semi g s : Forall gap_ok g -> exists T, t_kind T <> TEof /\ t_newline T = false /\ forall m t old, t_kind t = TIdent ->
  exists f o, module_name f m {| p_tok := t; p_old := old; p_src := gaps_text g ++ [59] :: s |} = Some (m ++ [], {| p_tok := T; p_old := o; p_src := s |}).
Proof.
  intros G. destruct (tk_semi false s) as (T & ET & KT & NT). exists T. split; [congruence|]. split; auto. intros m t old K. exists 2%nat, t.
  cbn [module_name p_tok]. rewrite (proj2 (kind_no TEof t)), (proj2 (kind_no TSemi t)) by congruence. cbn [orb].
  rewrite (next_tok t old _ T s) by (rewrite tk_gaps by auto; exact ET). cbn [p_tok].
  rewrite (proj2 (kind_no TDot T)), (proj2 (kind_no TColon T)), (proj2 (kind_iff TSemi T)) by congruence. rewrite orb_true_r, app_nil_r. reflexivity.
Qed.
Lemma module_part a b w s : Forall gap_ok a -> Forall gap_ok b -> identifier w -> stops s -> exists T, t_kind T <> TEof /\ t_newline T = false /\ forall m t old, t_kind t = TIdent ->
  exists f o, module_name f m {| p_tok := t; p_old := old; p_src := gaps_text a ++ [58] :: gaps_text b ++ w ++ s |} = Some (m ++ 58 :: List.concat w, {| p_tok := T; p_old := o; p_src := s |}).
Proof.
  intros G1 G2 I ST. exists (wtok false w s). split; [discriminate|]. split; auto. intros m t old K. exists 1%nat.
  destruct (tk_colon false (gaps_text b ++ w ++ s)) as (d & TD & KD & _).
  { destruct (first_ident w s I) as (E & W & D). destruct (first_gaps b (w ++ s) G2) as [[-> ->]|B]; [rewrite E|]; small. }
  { destruct (first_ident w s I) as (E & W & D). destruct (first_gaps b (w ++ s) G2) as [[-> ->]|B]; [rewrite E|]; small. }
  exists d. cbn [module_name p_tok]. rewrite (proj2 (kind_no TEof t)), (proj2 (kind_no TSemi t)) by congruence. cbn [orb].
  rewrite (next_tok t old _ d (gaps_text b ++ w ++ s)) by (rewrite tk_gaps by auto; exact TD). cbn [p_tok].
  rewrite (proj2 (kind_no TDot d)), (proj2 (kind_iff TColon d)) by congruence.
  rewrite (next_tok d t _ (wtok false w s) s) by (rewrite tk_gaps by auto; now apply tk_ident). reflexivity.
Qed.
Lemma import_end T g s s0 : Forall gap_ok g -> tokenize false false false s0 = (T, s) -> t_kind T = TSemi \/ t_kind T = TGreater -> forall m t old, t_kind t = TIdent ->
  exists f o, import_name f m {| p_tok := t; p_old := old; p_src := gaps_text g ++ s0 |} = Some (m ++ [], {| p_tok := T; p_old := o; p_src := s |}).
Proof.
  intros G ET KT m t old K. exists 2%nat, t.
  cbn [import_name p_tok]. rewrite (proj2 (kind_no TEof t)), (proj2 (kind_no TSemi t)), (proj2 (kind_no TGreater t)) by congruence. cbn [orb].
  rewrite (next_tok t old _ T s) by (rewrite tk_gaps by auto; exact ET). cbn [p_tok].
  rewrite (proj2 (kind_no TDot T)) by (destruct KT; congruence).
  assert (X : has_kind TEof T || has_kind TSemi T || has_kind TGreater T = true).
  { rewrite !orb_true_iff, !kind_iff. tauto. }
  rewrite X, app_nil_r. reflexivity.
Qed.

Section Scan.
Context (ft : file_type) (tags : bool).
Definition core (r : result) := (r_includes r, r_part r, r_provides r, r_requires r, r_interface r).
Definition Runs (p : pos) (r out : result) : Prop := exists f, loop f ft tags true p r = Some out.
(** From the token [t], followed by [s], the scan leads from the result [k] to [c]. *)
Definition From t s k c : Prop := forall old r, core r = k -> exists out, Runs {| p_tok := t; p_old := old; p_src := s |} r out /\ core out = c.
Definition Yields s k c : Prop := From (fst (tokenize false false false s)) (snd (tokenize false false false s)) k c.
Lemma next_eq p : next p = Some {| p_tok := fst (tokenize false false false (p_src p)); p_old := p_tok p; p_src := snd (tokenize false false false (p_src p)) |}.
Proof. unfold next. rewrite lex_tokenize. now destruct (tokenize false false false (p_src p)). Qed.
Lemma from_eof t s k : t_kind t = TEof -> From t s k k.
Proof. intros E old r C. exists r. split; auto. exists 1%nat. cbn [loop p_tok]. now rewrite (proj2 (kind_iff TEof t) E). Qed.
Lemma macros_core deps p r : core (fst (macros ft deps p r)) = core r.
Proof.
  unfold macros. destruct (_ && _); auto. cbn [fst]. destruct (_ || _); auto. destruct (equals _ _); auto.
Qed.
Lemma macros_go p r : snd (macros ft true p r) = false.
Proof. unfold macros. destruct (_ && _); auto. Qed.
Lemma from_skip t s k c : t_kind t <> TEof -> (t_newline t = false \/ (t_kind t <> TPound /\ (t_kind t = TIdent -> t_text t <> lit "module" /\ t_text t <> lit "import" /\ t_text t <> lit "export"))) ->
  Yields s k c -> From t s k c.
Proof.
  intros E H Y old r C. set (p := {| p_tok := t; p_old := old; p_src := s |}).
  destruct (Y t (fst (if has_kind TIdent (p_tok p) && tags then macros ft true p r else (r, false)))) as (out & [f R] & CO).
  { destruct (_ && _); auto. now rewrite macros_core. }
  exists out. split; auto. exists (S f). cbn [loop p_tok]. change (p_tok p) with t in *. rewrite (proj2 (kind_no TEof t) E).
  assert (LS : (if true && t_newline t && has_kind TIdent t then line_start f ft p r else Some (inr p)) = Some (inr p)).
  { destruct H as [->|[_ H]]; [reflexivity|]. destruct (t_newline t); [|reflexivity]. destruct (has_kind TIdent t) eqn:I; [|reflexivity]. cbn [andb].
    apply kind_iff in I. destruct (H I) as (A & B & D). unfold line_start. change (p_tok p) with t. apply equals_no in A, B, D. now rewrite A, B, D. }
  rewrite LS. change (p_tok p) with t. assert (DP : t_newline t && has_kind TPound t = false).
  { destruct H as [->|[H _]]; [reflexivity|]. rewrite (proj2 (kind_no TPound t) H). apply andb_false_r. }
  rewrite DP. destruct (if has_kind TIdent t && tags then macros ft true p r else (r, false)) as [r1 b] eqn:M.
  assert (b = false). { destruct (_ && _); [|congruence]. pose proof (macros_go p r) as G. now rewrite M in G. }
  subst b. rewrite next_eq. exact R.
Qed.
Lemma from_pound t s k c : t_newline t = true -> t_kind t = TPound ->
  (forall old r, core r = k -> exists p' r', directive true {| p_tok := t; p_old := old; p_src := s |} r = Some (p', r') /\ Yields (p_src p') (core r') c) -> From t s k c.
Proof.
  intros NL E D old r C. destruct (D old r C) as (p' & r' & ED & Y). destruct (Y (p_tok p') r' eq_refl) as (out & [f R] & CO).
  exists out. split; auto. exists (S f). cbn [loop p_tok]. rewrite (proj2 (kind_no TEof t)), (proj2 (kind_no TIdent t)), NL by congruence.
  cbn [andb p_tok]. rewrite (proj2 (kind_iff TPound t)), NL by auto. cbn [andb]. rewrite ED, next_eq. exact R.
Qed.
Lemma from_line t s k c : t_newline t = true -> t_kind t = TIdent ->
  (forall old r, core r = k -> exists f p' r', line_start f ft {| p_tok := t; p_old := old; p_src := s |} r = Some (inl (p', r')) /\ From (p_tok p') (p_src p') (core r') c) -> From t s k c.
Proof.
  intros NL E D old r C. destruct (D old r C) as (f1 & p' & r' & ED & Y). destruct (Y (p_old p') r' eq_refl) as (out & [f2 R] & CO).
  exists out. split; auto. exists (S (f1 + f2)). cbn [loop p_tok]. rewrite (proj2 (kind_no TEof t)), (proj2 (kind_iff TIdent t)), NL by congruence. cbn [andb].
  rewrite (line_start_more f1 (f1 + f2) ft _ _ _ ED) by lia. apply (loop_more f2); [destruct p'; exact R|lia].
Qed.
(** [export] is skipped, and the token after it is looked at. *)
Lemma from_export t s k c : t_newline t = true -> t_kind t = TIdent -> t_text t = lit "export" ->
  forall t' s', tokenize false false false s = (t', s') -> t_text t' <> lit "module" -> t_text t' <> lit "import" -> t_newline t' = false -> t_kind t' <> TEof ->
  Yields s' k c -> From t s k c.
Proof.
  intros NL E X t' s' T M I NL' E' Y old r C. set (p := {| p_tok := t; p_old := old; p_src := s |}). set (p' := {| p_tok := t'; p_old := t; p_src := s' |}).
  destruct (Y t' (fst (if has_kind TIdent t' && tags then macros ft true p' r else (r, false)))) as (out & [f R] & CO).
  { destruct (_ && _); auto. now rewrite macros_core. }
  exists out. split; auto. exists (S f). cbn [loop p_tok]. change (p_tok p) with t. rewrite (proj2 (kind_no TEof t)), (proj2 (kind_iff TIdent t)), NL by congruence. cbn [andb].
  assert (LS : line_start f ft p r = Some (inr p')).
  { unfold line_start. change (p_tok p) with t. rewrite (proj2 (equals_iff t _) X).
    rewrite (proj2 (equals_no t "module")), (proj2 (equals_no t "import")) by (rewrite X; discriminate). rewrite next_eq. change (p_src p) with s. rewrite T. cbn [fst snd p_tok].
    now rewrite (proj2 (equals_no t' _) M), (proj2 (equals_no t' _) I). }
  rewrite LS. change (p_tok p') with t'. rewrite NL'. cbn [andb].
  destruct (if has_kind TIdent t' && tags then macros ft true p' r else (r, false)) as [r1 b] eqn:MC.
  assert (b = false). { destruct (_ && _); [|congruence]. pose proof (macros_go p' r) as G. now rewrite MC in G. }
  subst b. rewrite next_eq. exact R.
Qed.
(** The rest of a line changes nothing. *)
Lemma yields_rest more : line_end more -> forall k c, Yields more k c -> forall s, Fresh more s -> Yields s k c.
Proof.
  intros ML k c Y s. remember (List.length s) as n eqn:L. assert (LE : (List.length s <= n)%nat) by lia. clear L. revert s LE.
  induction n as [|n IH]; intros s LE F; destruct (lex_mid more ML s F) as [E|(t & s' & E & NL & K & F' & LT)].
  - unfold Yields. rewrite E. exact Y.
  - lia.
  - unfold Yields. rewrite E. exact Y.
  - unfold Yields. rewrite E. cbn [fst snd]. apply from_skip; auto. apply IH; auto. lia.
Qed.
Lemma yields_flag more nl k c : line_end more -> Yields more k c -> From (fst (tokenize false false nl more)) (snd (tokenize false false nl more)) k c.
Proof.
  intros [->|[m ->]] Y.
  - rewrite tokenize_nil in *. unfold Yields in Y. rewrite tokenize_nil in Y. cbn [fst snd] in *. intros old r C. destruct (Y old r C) as (out & [f R] & CO).
    exists out. split; auto. exists f. destruct f; [discriminate|]. exact R.
  - unfold Yields in Y. rewrite tokenize_newline in * by reflexivity. exact Y.
Qed.

(** One line. *)
Definition is_cppm : bool := match ft with Cppm => true | _ => false end.
Definition module_effect (m : str) (k : list (bool * str) * str * str * list str * bool) :=
  let '(i, pt, pr, rq, fc) := k in (i, m, if is_cppm then m else pr, if is_cppm then rq else rq ++ [m], fc).
Definition effect (l : line) (k : list (bool * str) * str * str * list str * bool) :=
  let '(i, pt, pr, rq, fc) := k in
  match l with
  | LInclude _ _ _ _ _ quoted name _ _ => (i ++ [(quoted, List.concat name)], pt, pr, rq, fc)
  | LModule _ ex _ d p _ _ _ =>
      let '(i, pt, pr, rq, fc) := module_effect (dotted_name d ++ part_name p) k in (i, pt, pr, rq, match ex with None => fc | Some _ => true end)
  | LImport _ _ _ (IName d) _ _ _ => (i, pt, pr, rq ++ [dotted_name d], fc)
  | LImport _ _ _ (IHeader _ d _) _ _ _ => (i, pt, pr, rq ++ [60 :: dotted_name d ++ [62]], fc)
  | LImport _ _ _ (IPart _ w) _ _ _ => (i, pt, pr, match pt with [] => rq | _ => rq ++ [before_colon pt ++ 58 :: List.concat w] end, fc)
  | _ => k
  end.
Lemma core_module m r : core (add_module ft m r) = module_effect m (core r).
Proof. unfold core, add_module, module_effect, is_cppm. cbn. now destruct ft. Qed.

Lemma yields_start g s k c : indent_ok g -> From (fst (tokenize false false true s)) (snd (tokenize false false true s)) k c -> Yields ([10] :: gaps_text g ++ s) k c.
Proof. intros [G N] F. unfold Yields. rewrite tokenize_newline by reflexivity. cbn [negb]. rewrite tokenize_gaps; auto. Qed.
Lemma begins_text w txt more l s' : line_end more -> txt ++ more = l ++ s' -> List.concat l = lit w -> is_run l s' -> begins w txt.
Proof.
  intros ML E C [F N]. exists l. assert (X : exists rest, txt = l ++ rest /\ s' = rest ++ more).
  { clear C. revert txt E. induction F as [|x l W F IH]; intros txt E; [exists txt; auto|]. cbn [List.app] in E. destruct txt as [|y txt]; cbn [List.app] in E.
    - exfalso. destruct ML as [->|[m ->]]; [discriminate|]. injection E as <- _. cbn in W. unfold wordc, letter, digit in W. lia.
    - injection E as -> E. destruct (IH txt E) as (rest & -> & ->). exists rest. auto. }
  destruct X as (rest & -> & ->). exists rest. split; auto. split; auto. split; auto. destruct rest; [cbn; unfold wordc, letter, digit; lia|exact N].
Qed.
Lemma something_gap ps : something ps -> ~ starts_gap ps.
Proof. destruct ps as [|[] ps]; cbn; tauto. Qed.
Lemma line_code g ps e more k c : line_end more -> line_ok (LCode g ps e) -> Forall utf8 (text ps e) -> Yields more k c -> Yields ([10] :: gaps_text g ++ text ps e ++ more) k c.
Proof.
  intros ML (G & P & NG & H & B1 & B2 & B3) U Y. apply yields_start; auto.
  destruct (lex_first more ML [] ps e true P U) as [[_ E]|(t & s' & E & T)].
  - destruct NG as [->|NG]; [cbn; tauto|now apply something_gap].
  - now left.
  - rewrite E. now apply yields_flag.
  - rewrite E. cbn [fst snd]. destruct T as (T1 & T2 & T3 & T4 & T5 & T6 & _). apply from_skip; auto; [|eapply yields_rest; eauto]. right. split.
    + intros K. specialize (T5 K). destruct (text ps e); [|apply H; exact T5]. cbn [List.app] in T5. destruct ML as [->|[m ->]]; discriminate.
    + intros K. destruct (T6 K) as (w & Ew & Tw & R). rewrite Tw. repeat split; intros C; [apply B1|apply B2|apply B3]; eapply begins_text; eauto.
Qed.
Lemma line_directive g1 hash g2 ps e more k c : line_end more -> line_ok (LDirective g1 hash g2 ps e) -> Forall utf8 (text ps e) -> Yields more k c ->
  Yields ([10] :: gaps_text g1 ++ hash ++ gaps_text g2 ++ text ps e ++ more) k c.
Proof.
  intros ML (G & H & G2 & P & SM & H1 & H2 & B1 & B2) U Y. apply yields_start; auto.
  assert (NE : text ps e <> []).
  { destruct ps as [|p ps]; [contradiction|]. rewrite text_cons. destruct p as [| | |pre]; try contradiction; cbn; try discriminate. destruct pre; discriminate. }
  assert (FT : first (text ps e ++ more) = first (text ps e)) by (destruct (text ps e); [congruence|reflexivity]).
  destruct (tk_hash true hash (gaps_text g2 ++ text ps e ++ more) H) as (t & T & KT & NT).
  { destruct (first_gaps g2 (text ps e ++ more) G2) as [[-> ->]|B]; [congruence|small]. }
  { destruct (first_gaps g2 (text ps e ++ more) G2) as [[-> ->]|B]; [congruence|small]. }
  rewrite T. cbn [fst snd]. apply from_pound; auto. intros old r C.
  destruct (lex_first more ML [] ps e false P U) as [[-> _]|(x & s' & E & X)]; [now apply something_gap|now left|contradiction|].
  destruct X as (X1 & X2 & X3 & X4 & X5 & X6 & _).
  exists {| p_tok := x; p_old := old; p_src := s' |}, r. split; [|cbn [p_src]; rewrite C; eapply yields_rest; eauto].
  unfold directive. cbn [p_src p_old]. rewrite lex_tokenize, tk_gaps, E by auto. rewrite X1. cbn [negb andb].
  destruct (has_kind TIdent x) eqn:KI; [|reflexivity]. apply kind_iff in KI. destruct (X6 KI) as (w & Ew & Tw & R).
  rewrite (proj2 (equals_no x "include")), (proj2 (equals_no x "import")); [reflexivity| |]; rewrite Tw; intros Q; [apply B2|apply B1]; eapply begins_text; eauto.
Qed.

Lemma include_name_eq t a b B rest : t_text t = a :: B ++ [b] -> t_from t = a :: B ++ rest -> (List.length B + 2 < N.to_nat 65536)%nat -> include_name t = B.
Proof.
  intros ET EF L. unfold include_name. rewrite ET, EF. cbn [List.length tl]. rewrite app_length. cbn [List.length].
  rewrite Nat.mod_small by lia. destruct (Nat.ltb_spec (S (List.length B + 1)) 2) as [X|X].
  - assert (B = []) by (destruct B; [auto|cbn in X; lia]). subst. cbn in X. lia.
  - replace (S (List.length B + 1) - 2)%nat with (List.length B) by lia. rewrite firstn_app, Nat.sub_diag, firstn_all. cbn. apply app_nil_r.
Qed.
Lemma plain_text (name : list ch) : atoms_text (map Plain name) = name.
Proof. unfold atoms_text. induction name; cbn; congruence. Qed.
Definition name_text (quoted : bool) (name : list ch) : src := if quoted then [[34]] ++ name ++ [[34]] else [[60]] ++ name ++ [[62]].
Lemma tk_name (quoted : bool) (name : list ch) s : (List.length (List.concat name) + 2 < N.to_nat 65536)%nat ->
  Forall (fun c => code c <> 10 /\ if quoted then code c <> 34 /\ code c <> 92 else code c <> 62) name ->
  exists t, tokenize true false false (name_text quoted name ++ s) = (t, s) /\ t_newline t = false /\ (t_kind t = if quoted then TString else TAngle) /\ include_name t = List.concat name.
Proof.
  intros L F. destruct quoted.
  - cbn [name_text]. assert (A : after true [34] (name ++ [34] :: s) = Tok TString s).
    { pose proof (quote_closed 34 (map Plain name) s) as Q. rewrite plain_text in Q. change (Tok TString (quote 34 (name ++ [34] :: s)) = Tok TString s). rewrite Q; auto; [now left|].
      apply Forall_map. eapply Forall_impl; [|exact F]. cbn. intros c (A & B & C). repeat split; auto. }
    exists (make TString false ([34] :: name ++ [34] :: s) s). split; [|split; [reflexivity|split; [reflexivity|]]].
    + rewrite <- !app_assoc. now apply tokenize_tok.
    + apply (include_name_eq _ 34 34 _ (34 :: List.concat s)); auto.
      * cbn [make t_text]. change ([34] :: name ++ [34] :: s) with (([34] :: name) ++ [[34]] ++ s). rewrite app_assoc, firstn_app_exact. rewrite concat_app. reflexivity.
      * cbn [make t_from]. cbn [List.concat List.app]. rewrite concat_app. reflexivity.
  - cbn [name_text]. assert (A : after true [60] (name ++ [62] :: s) = Tok TAngle s).
    { change (Tok TAngle (drop_if (N.eqb 62) (drop_while (fun b => negb (b =? 62)) (name ++ [62] :: s))) = Tok TAngle s). f_equal.
      assert (D : drop_while (fun b => negb (b =? 62)) (name ++ [62] :: s) = [62] :: s).
      { clear - F. induction F as [|c name [_ C] F IH]; cbn [List.app drop_while]; [reflexivity|]. rewrite lead_code. apply N.eqb_neq in C. rewrite C. exact IH. }
      rewrite D. reflexivity. }
    exists (make TAngle false ([60] :: name ++ [62] :: s) s). split; [|split; [reflexivity|split; [reflexivity|]]].
    + rewrite <- !app_assoc. now apply tokenize_tok.
    + apply (include_name_eq _ 60 62 _ (62 :: List.concat s)); auto.
      * cbn [make t_text]. change ([60] :: name ++ [62] :: s) with (([60] :: name) ++ [[62]] ++ s). rewrite app_assoc, firstn_app_exact. rewrite concat_app. reflexivity.
      * cbn [make t_from]. cbn [List.concat List.app]. rewrite concat_app. reflexivity.
Qed.
Lemma line_include g1 hash g2 kw g3 quoted name ps e more k c : line_end more -> line_ok (LInclude g1 hash g2 kw g3 quoted name ps e) -> Forall utf8 (text ps e) ->
  Yields more (effect (LInclude g1 hash g2 kw g3 quoted name ps e) k) c ->
  Yields ([10] :: gaps_text g1 ++ hash ++ gaps_text g2 ++ word kw ++ gaps_text g3 ++ name_text quoted name ++ text ps e ++ more) k c.
Proof.
  intros ML (G & H & G2 & G3 & KW & L & FN & P) U Y. apply yields_start; auto. set (s := gaps_text g3 ++ name_text quoted name ++ text ps e ++ more).
  assert (FS : ~ wordc (first s) /\ first s < 256).
  { unfold s. destruct (first_gaps g3 (name_text quoted name ++ text ps e ++ more) G3) as [[-> ->]|B]; [destruct quoted; cbn; small|small]. }
  assert (WK : word kw <> [] /\ Forall (fun c => wordc (code c)) (word kw) /\ ~ digit (first (word kw)) /\ is_keyword (List.concat (word kw)) = false
     /\ ~ prefix_char (first (word kw)) /\ List.concat (word kw) = lit kw /\ first (word kw) = 105).
  { destruct KW as [-> | ->]; (split; [discriminate|]; split; [cbn; repeat (constructor; [unfold wordc, letter; cbn; lia|]); constructor|]; split; [cbn; unfold digit; lia|];
      split; [vm_compute; reflexivity|]; split; [cbn; unfold prefix_char; lia|]; split; reflexivity). }
  destruct WK as (W1 & W2 & W3 & W4 & W5 & W6 & W7).
  assert (FW : first (word kw ++ s) = 105) by (destruct (word kw); [congruence|exact W7]).
  destruct (tk_hash true hash (gaps_text g2 ++ word kw ++ s) H) as (t & T & KT & NT).
  { destruct (first_gaps g2 (word kw ++ s) G2) as [[-> ->]|B]; [rewrite FW; discriminate|small]. }
  { destruct (first_gaps g2 (word kw ++ s) G2) as [[-> ->]|B]; [rewrite FW; discriminate|small]. }
  rewrite T. cbn [fst snd]. apply from_pound; auto. intros old r C.
  destruct (tk_name quoted name (text ps e ++ more) L FN) as (x & X & NX & KX & IX).
  eexists _, _. split.
  - unfold directive. cbn [p_src p_old]. rewrite lex_tokenize, tk_gaps, (tk_word false false (word kw) s) by tauto.
    cbn [wtok t_newline negb andb]. rewrite (proj2 (kind_iff TIdent (wtok false (word kw) s)) eq_refl).
    replace (equals (wtok false (word kw) s) "include" || equals (wtok false (word kw) s) "import") with true
      by (symmetry; rewrite orb_true_iff, !equals_iff; cbn [wtok t_text]; rewrite W6; destruct KW as [-> | ->]; auto).
    cbn [andb]. rewrite lex_tokenize. unfold s. rewrite tk_gaps, X by auto. rewrite NX. cbn [negb andb].
    replace (has_kind TString x || has_kind TAngle x) with true by (symmetry; rewrite orb_true_iff, !kind_iff; destruct quoted; auto). reflexivity.
  - cbn [p_src]. rewrite IX. replace (has_kind TString x) with quoted by (symmetry; destruct quoted; [now apply kind_iff|apply kind_no; congruence]).
    assert (CE : effect (LInclude g1 hash g2 kw g3 quoted name ps e) k = core (add_include (quoted, List.concat name) r)) by (rewrite <- C; reflexivity). rewrite CE in Y.
    apply (yields_rest more ML _ _ Y). exists [if quoted then 34 else 62]. split; [exists ps, e; auto|left; destruct quoted; reflexivity].
Qed.

Lemma tk_kw nl kw s : In kw ["export"; "module"; "import"]%string -> ~ wordc (first s) -> first s < 256 ->
  tokenize false false nl (word kw ++ s) = (wtok nl (word kw) s, s) /\ List.concat (word kw) = lit kw.
Proof.
  intros I N L. cbn in I. destruct I as [<-|[<-|[<-|[]]]].
  all: split; [|reflexivity]; apply tk_word; [discriminate|cbn; repeat (constructor; [unfold wordc, letter; cbn; lia|]); constructor
    |cbn; unfold digit; lia|vm_compute; reflexivity|exact N|exact L|right; cbn; unfold prefix_char; lia].
Qed.
Lemma fresh_gaps g ps e more : Forall gap_ok g -> Forall utf8 (gaps_text g) -> pieces_ok [] ps e -> Forall utf8 (text ps e) -> Fresh more (gaps_text g ++ text ps e ++ more).
Proof.
  intros G UG P U. exists []. split; [|now left]. exists (map Gap g ++ ps), e.
  assert (E : text (map Gap g ++ ps) e = gaps_text g ++ text ps e).
  { unfold text, gaps_text. rewrite flat_map_app, <- app_assoc. f_equal. clear. induction g; cbn; congruence. }
  rewrite E, <- app_assoc. split; auto. split; [|apply Forall_app; auto]. clear - G P. induction G; cbn; auto.
Qed.
Lemma fresh_semi g ps e more : Forall gap_ok g -> Forall utf8 (gaps_text g) -> pieces_ok [59] ps e -> Forall utf8 (text ps e) -> Fresh more (gaps_text g ++ [59] :: text ps e ++ more).
Proof.
  intros G UG P U. apply (fresh_gaps g (Neutral [59] :: ps) e more G UG).
  - cbn [pieces_ok code]. unfold white_c, blank. repeat (split; [lia|]). exact P.
  - rewrite text_cons. apply Forall_app. split; auto. constructor; auto. cbn. lia.
Qed.
Lemma first_stop s : stops s -> ~ wordc (first s) /\ first s < 256.
Proof. unfold stops. tauto. Qed.
Lemma stops_semi g s : Forall gap_ok g -> stops (gaps_text g ++ [59] :: s).
Proof. intros G. apply stops_gaps; auto. right. small. Qed.
Lemma semi_rest ps e more : pieces_ok [59] ps e -> Forall utf8 (text ps e) -> Fresh more (text ps e ++ more).
Proof. intros P U. exists [59]. split; [exists ps, e; auto|now left]. Qed.

Lemma line_fragment g1 g2 ps e more k c : line_end more -> line_ok (LFragment g1 g2 ps e) -> Forall utf8 (text ps e) -> Yields more k c ->
  Yields ([10] :: gaps_text g1 ++ word "module" ++ gaps_text g2 ++ text ps e ++ more) k c.
Proof.
  intros ML (G & G2 & P & SM & H) U Y. apply yields_start; auto.
  assert (FT : first (text ps e ++ more) = first (text ps e)) by (destruct (text ps e); [cbn in H; lia|reflexivity]).
  destruct (first_stop (gaps_text g2 ++ text ps e ++ more)) as [S1 S2]; [apply stops_gaps; auto; right; unfold stops; rewrite FT; small|].
  destruct (tk_kw true "module" (gaps_text g2 ++ text ps e ++ more)) as [-> C]; [cbn; auto|exact S1|exact S2|]. cbn [fst snd]. apply from_line; auto. intros old r CR.
  destruct (lex_first more ML [] ps e false P U) as [[-> _]|(x & s' & E & X)]; [now apply something_gap|now left|contradiction|].
  destruct X as (X1 & X2 & X3 & X4 & X5 & X6 & _).
  exists 0%nat, {| p_tok := x; p_old := wtok true (word "module") (gaps_text g2 ++ text ps e ++ more); p_src := s' |}, r. split.
  - unfold line_start. cbn [p_tok]. rewrite (proj2 (equals_iff _ "module")) by reflexivity.
    rewrite (next_tok _ old _ x s') by (rewrite tk_gaps by auto; exact E). cbn [p_tok]. rewrite (proj2 (kind_no TIdent x)); [reflexivity|].
    intros K. destruct (X6 K) as (w & Ew & _ & [F _]). destruct w as [|y w]; [cbn [List.app] in Ew; rewrite Ew in X4; lia|].
    inversion F; subst. rewrite Ew in FT. cbn [List.app first] in FT. rewrite <- FT in H. match goal with W : wordc (code y) |- _ => unfold wordc, letter, digit in W end. lia.
  - cbn [p_tok p_src]. rewrite CR. apply from_skip; auto. eapply yields_rest; eauto.
Qed.
Lemma export_text_kind x s' nl s n kw : is_keyword (lit kw) = false -> (exists a t, lit kw = a :: t /\ (a = 109 \/ a = 105)) ->
  tokenize false false nl s = (x, s') -> t_text x = List.concat (firstn (S n) s) -> utf8 (hd [] s) -> t_text x = lit kw -> t_kind x = TIdent.
Proof.
  intros NK (a & t & EK & A) E T U C. destruct s as [|d s]; [cbn in U; tauto|]. cbn [hd] in U. rewrite C, EK in T. cbn [firstn List.concat] in T.
  destruct d as [|b d]; [cbn in U; tauto|]. injection T as TA _. subst b.
  assert (L : is_space (lead (a :: d)) = false) by (cbn; destruct A as [-> | ->]; reflexivity).
  assert (AF : after false (a :: d) s = Tok TIdent (drop_while is_word s)) by (destruct A as [-> | ->]; reflexivity).
  rewrite (tokenize_tok _ _ nl _ _ _ _ L AF) in E. injection E as EX _. rewrite <- EX in C |- *. unfold make in *. cbn [t_text t_kind] in *. rewrite C, NK. reflexivity.
Qed.
Lemma line_export g1 g2 ps e more k c : line_end more -> line_ok (LExport g1 g2 ps e) -> Forall utf8 (text ps e) -> Yields more k c ->
  Yields ([10] :: gaps_text g1 ++ word "export" ++ gaps_text g2 ++ text ps e ++ more) k c.
Proof.
  intros ML (G & N2 & G2 & P & SM & B1 & B2) U Y. apply yields_start; auto.
  destruct (first_stop (gaps_text g2 ++ text ps e ++ more)) as [S1 S2]; [apply stops_gaps; auto|].
  destruct (tk_kw true "export" (gaps_text g2 ++ text ps e ++ more)) as [-> C]; [cbn; auto|exact S1|exact S2|]. cbn [fst snd].
  destruct (lex_first more ML [] ps e false P U) as [[-> _]|(x & s' & E & X)]; [now apply something_gap|now left|contradiction|].
  destruct X as (X1 & X2 & X3 & X4 & X5 & X6 & [n X7]).
  assert (UH : utf8 (hd [] (text ps e ++ more))).
  { destruct (text ps e) as [|d t] eqn:ET; [|inversion U; auto]. exfalso. destruct ps as [|p ps]; [contradiction|]. rewrite text_cons in ET.
    destruct p as [| | |pre]; try contradiction; cbn in ET; try discriminate. destruct pre; discriminate. }
  apply (from_export (wtok true (word "export") (gaps_text g2 ++ text ps e ++ more)) _ k c eq_refl eq_refl C x s').
  - rewrite tk_gaps by auto. exact E.
  - intros Q. assert (K : t_kind x = TIdent). { apply (export_text_kind x s' false (text ps e ++ more) n "module"); auto. exists 109. eexists. split; [reflexivity|auto]. }
    destruct (X6 K) as (w & Ew & Tw & R). apply B1. eapply begins_text; eauto. now rewrite <- Tw.
  - intros Q. assert (K : t_kind x = TIdent). { apply (export_text_kind x s' false (text ps e ++ more) n "import"); auto. exists 105. eexists. split; [reflexivity|auto]. }
    destruct (X6 K) as (w & Ew & Tw & R). apply B2. eapply begins_text; eauto. now rewrite <- Tw.
  - exact X1.
  - exact X2.
  - eapply yields_rest; eauto.
Qed.

Lemma dotted_split d : dotted_text d = d_head d ++ rest_text (d_rest d).
Proof. reflexivity. Qed.
Lemma module_decl d p g3 ps e more : dotted_ok d -> (forall a b w, p = Some (a, b, w) -> Forall gap_ok a /\ Forall gap_ok b /\ identifier w) ->
  Forall gap_ok g3 -> Forall utf8 (gaps_text g3) -> pieces_ok [59] ps e -> Forall utf8 (text ps e) ->
  exists t0 s0 T s', tokenize false false false (dotted_text d ++ part_text p ++ gaps_text g3 ++ [59] :: text ps e ++ more) = (t0, s0) /\ t_kind t0 = TIdent
    /\ t_kind T <> TEof /\ t_newline T = false /\ Fresh more s'
    /\ forall old r, exists f o, parse_module f ft {| p_tok := t0; p_old := old; p_src := s0 |} r
         = Some ({| p_tok := T; p_old := o; p_src := s' |}, add_module ft (dotted_name d ++ part_name p) r).
Proof.
  intros (IH & RO) PO G3 U3 P U. set (tail := gaps_text g3 ++ [59] :: text ps e ++ more).
  assert (X : exists T s', stops (part_text p ++ tail) /\ t_kind T <> TEof /\ t_newline T = false /\ Fresh more s' /\ forall m t old, t_kind t = TIdent ->
    exists f o, module_name f m {| p_tok := t; p_old := old; p_src := part_text p ++ tail |} = Some (m ++ part_name p, {| p_tok := T; p_old := o; p_src := s' |})).
  { destruct p as [[[a b] w]|]; cbn [part_text part_name List.app].
    - destruct (PO a b w eq_refl) as (PA & PB & PW). destruct (module_part a b w tail PA PB PW) as (T & T1 & T2 & T3); [now apply stops_semi|].
      exists T, tail. rewrite <- !app_assoc. cbn [List.app]. rewrite <- !app_assoc. split; [apply stops_gaps; auto; right; small|]. split; auto. split; auto. split; auto. now apply fresh_semi.
    - destruct (module_semi g3 (text ps e ++ more) G3) as (T & T1 & T2 & T3). exists T, (text ps e ++ more).
      split; [now apply stops_semi|]. split; auto. split; auto. split; auto. now apply semi_rest. }
  destruct X as (T & s' & ST & T1 & T2 & T3 & T4).
  pose proof (module_rest (d_rest d) _ _ T s' RO ST T4) as MR.
  exists (wtok false (d_head d) (rest_text (d_rest d) ++ part_text p ++ tail)), (rest_text (d_rest d) ++ part_text p ++ tail), T, s'.
  split; [rewrite dotted_split, <- app_assoc; apply tk_ident; auto; now apply stops_rest|]. split; [reflexivity|]. split; auto. split; auto. split; auto.
  intros old r. destruct (MR (List.concat (d_head d)) (wtok false (d_head d) (rest_text (d_rest d) ++ part_text p ++ tail)) old eq_refl) as (f & o & E).
  exists f, o. unfold parse_module. cbn [p_tok]. change (t_text (wtok false (d_head d) (rest_text (d_rest d) ++ part_text p ++ tail))) with (List.concat (d_head d)).
  rewrite E. unfold dotted_name. rewrite <- app_assoc. reflexivity.
Qed.
Lemma line_module g1 ex g2 d p g3 ps e more k c : line_end more -> line_ok (LModule g1 ex g2 d p g3 ps e) -> Forall utf8 (gaps_text g3) -> Forall utf8 (text ps e) ->
  Yields more (effect (LModule g1 ex g2 d p g3 ps e) k) c ->
  Yields ([10] :: gaps_text g1 ++ export_text ex ++ word "module" ++ gaps_text g2 ++ dotted_text d ++ part_text p ++ gaps_text g3 ++ [59] :: text ps e ++ more) k c.
Proof.
  intros ML (G & EX & N2 & G2 & DO & PO & G3 & P) U3 U Y. apply yields_start; auto.
  destruct (module_decl d p g3 ps e more DO PO G3 U3 P U) as (t0 & s0 & T & s' & E0 & K0 & T1 & T2 & T3 & PM).
  set (body := dotted_text d ++ part_text p ++ gaps_text g3 ++ [59] :: text ps e ++ more) in *.
  destruct (first_stop (gaps_text g2 ++ body)) as [S1 S2]; [apply stops_gaps; auto|].
  assert (NX : forall t old, next {| p_tok := t; p_old := old; p_src := gaps_text g2 ++ body |} = Some {| p_tok := t0; p_old := t; p_src := s0 |})
    by (intros; apply next_tok; rewrite tk_gaps by auto; exact E0).
  destruct ex as [gx|]; cbn [export_text List.app] in *.
  - destruct (EX gx eq_refl) as [N1 GX]. rewrite <- app_assoc.
    destruct (first_stop (gaps_text gx ++ word "module" ++ gaps_text g2 ++ body)) as [Z1 Z2]; [apply stops_gaps; auto|].
    destruct (tk_kw true "export" (gaps_text gx ++ word "module" ++ gaps_text g2 ++ body)) as [-> C1]; [cbn; auto|exact Z1|exact Z2|]. cbn [fst snd].
    destruct (tk_kw false "module" (gaps_text g2 ++ body)) as [E1 C2]; [cbn; auto|exact S1|exact S2|].
    apply from_line; auto. intros old r CR. destruct (PM (wtok false (word "module") (gaps_text g2 ++ body)) r) as (f & o & EP).
    exists f, {| p_tok := T; p_old := o; p_src := s' |}, (set_interface (add_module ft (dotted_name d ++ part_name p) r)). split.
    + unfold line_start. cbn [p_tok]. rewrite (proj2 (equals_no _ "module")), (proj2 (equals_no _ "import")), (proj2 (equals_iff _ "export")) by (try reflexivity; discriminate).
      rewrite (next_tok _ old _ (wtok false (word "module") (gaps_text g2 ++ body)) (gaps_text g2 ++ body)) by (rewrite tk_gaps by auto; exact E1). cbn [p_tok].
      rewrite (proj2 (equals_iff _ "module")) by reflexivity. rewrite NX, EP. reflexivity.
    + cbn [p_tok p_src]. assert (CE : effect (LModule g1 (Some gx) g2 d p g3 ps e) k = core (set_interface (add_module ft (dotted_name d ++ part_name p) r))).
      { rewrite <- CR. unfold effect, core, set_interface, add_module, module_effect, is_cppm. cbn. now destruct ft. }
      rewrite <- CE. apply from_skip; auto. apply (yields_rest more ML _ _ Y _ T3).
  - destruct (tk_kw true "module" (gaps_text g2 ++ body)) as [-> C2]; [cbn; auto|exact S1|exact S2|]. cbn [fst snd].
    apply from_line; auto. intros old r CR. destruct (PM (wtok true (word "module") (gaps_text g2 ++ body)) r) as (f & o & EP).
    exists f, {| p_tok := T; p_old := o; p_src := s' |}, (add_module ft (dotted_name d ++ part_name p) r). split.
    + unfold line_start. cbn [p_tok]. rewrite (proj2 (equals_iff _ "module")) by reflexivity. rewrite NX. cbn [p_tok]. rewrite (proj2 (kind_iff TIdent t0) K0). rewrite EP. reflexivity.
    + cbn [p_tok p_src]. assert (CE : effect (LModule g1 None g2 d p g3 ps e) k = core (add_module ft (dotted_name d ++ part_name p) r)).
      { rewrite <- CR. unfold effect, core, set_interface, add_module, module_effect, is_cppm. cbn. now destruct ft. }
      rewrite <- CE. apply from_skip; auto. apply (yields_rest more ML _ _ Y _ T3).
Qed.

Definition import_effect (i : import) (k : list (bool * str) * str * str * list str * bool) :=
  let '(inc, pt, pr, rq, fc) := k in
  match i with
  | IName d => (inc, pt, pr, rq ++ [dotted_name d], fc)
  | IHeader _ d _ => (inc, pt, pr, rq ++ [60 :: dotted_name d ++ [62]], fc)
  | IPart _ w => (inc, pt, pr, match pt with [] => rq | _ => rq ++ [before_colon pt ++ 58 :: List.concat w] end, fc)
  end.
Definition import_ok (i : import) : Prop :=
  match i with
  | IName d => dotted_ok d
  | IPart g w => Forall gap_ok g /\ identifier w
  | IHeader a d b => Forall gap_ok a /\ dotted_ok d /\ Forall gap_ok b
  end.
Lemma import_decl i g3 ps e more : import_ok i -> Forall gap_ok g3 -> Forall utf8 (gaps_text g3) -> pieces_ok [59] ps e -> Forall utf8 (text ps e) ->
  exists t0 s0 T s', tokenize false false false (import_text i ++ gaps_text g3 ++ [59] :: text ps e ++ more) = (t0, s0)
    /\ t_kind T <> TEof /\ t_newline T = false /\ Fresh more s'
    /\ forall old r, exists f o r', parse_import f {| p_tok := t0; p_old := old; p_src := s0 |} r
         = Some ({| p_tok := T; p_old := o; p_src := s' |}, r') /\ core r' = import_effect i (core r).
Proof.
  intros IO G3 U3 P U. set (tail := gaps_text g3 ++ [59] :: text ps e ++ more).
  pose proof (fresh_semi g3 ps e more G3 U3 P U) as FT. fold tail in FT. pose proof (stops_semi g3 (text ps e ++ more) G3) as ST. fold tail in ST.
  destruct (tk_semi false (text ps e ++ more)) as (TS & ES & KS & NS).
  destruct i as [d|g w|a d b]; cbn [import_ok import_text import_effect] in *.
  - destruct IO as (IH & RO).
    pose proof (import_rest (d_rest d) tail [] TS (text ps e ++ more) RO ST (import_end TS g3 _ _ G3 ES (or_introl KS))) as MR.
    exists (wtok false (d_head d) (rest_text (d_rest d) ++ tail)), (rest_text (d_rest d) ++ tail), TS, (text ps e ++ more).
    split; [rewrite dotted_split, <- app_assoc; apply tk_ident; auto; now apply stops_rest|]. split; [congruence|]. split; auto. split; [now apply semi_rest|].
    intros old r. destruct (MR (List.concat (d_head d)) (wtok false (d_head d) (rest_text (d_rest d) ++ tail)) old eq_refl) as (f & o & E).
    exists f, o, (add_require (dotted_name d) r). split; [|reflexivity]. unfold parse_import. cbn [p_tok].
    rewrite (proj2 (kind_no TColon _)), (proj2 (kind_no TLess _)) by discriminate. cbn [p_tok]. rewrite (proj2 (kind_iff TIdent _)) by reflexivity.
    change (t_text (wtok false (d_head d) (rest_text (d_rest d) ++ tail))) with (List.concat (d_head d)). rewrite E. unfold dotted_name. rewrite app_nil_r. reflexivity.
  - destruct IO as (G & I). cbn [List.app]. rewrite <- app_assoc.
    assert (FF : first (gaps_text g ++ w ++ tail) <> 58 /\ first (gaps_text g ++ w ++ tail) <> 62).
    { destruct (first_ident w tail I) as (E & W & D). destruct (first_gaps g (w ++ tail) G) as [[-> ->]|B]; [rewrite E|]; small. }
    destruct (tk_colon false (gaps_text g ++ w ++ tail)) as (t0 & E0 & K0 & N0); [tauto|tauto|].
    exists t0, (gaps_text g ++ w ++ tail), (wtok false w tail), tail. split; [exact E0|]. split; [discriminate|]. split; auto. split; auto.
    intros old r. exists 0%nat, t0. eexists. split.
    + unfold parse_import. cbn [p_tok]. rewrite (proj2 (kind_iff TColon t0) K0). rewrite (next_tok _ _ _ (wtok false w tail) tail) by (rewrite tk_gaps by auto; now apply tk_ident). reflexivity.
    + cbn [p_tok wtok t_text]. unfold core. destruct (r_part r) eqn:RP; cbn; rewrite ?RP; reflexivity.
  - destruct IO as (GA & (IH & RO) & GB). cbn [List.app]. rewrite dotted_split, <- !app_assoc. cbn [List.app].
    set (rst := gaps_text a ++ d_head d ++ rest_text (d_rest d) ++ gaps_text b ++ [62] :: tail).
    assert (FF : first rst <> 60 /\ first rst <> 61 /\ first rst <> 37 /\ first rst <> 58).
    { unfold rst. destruct (first_ident (d_head d) (rest_text (d_rest d) ++ gaps_text b ++ [62] :: tail) IH) as (E & W & D).
      destruct (first_gaps a (d_head d ++ rest_text (d_rest d) ++ gaps_text b ++ [62] :: tail) GA) as [[-> ->]|B]; [rewrite E|]; small. }
    destruct (tk_less false rst) as (t0 & E0 & K0 & N0); [tauto|tauto|tauto|tauto|].
    destruct (tk_greater false tail) as (TG & EG & KG & NG).
    { unfold tail. destruct (first_gaps g3 ([59] :: text ps e ++ more) G3) as [[-> ->]|B]; small. }
    { unfold tail. destruct (first_gaps g3 ([59] :: text ps e ++ more) G3) as [[-> ->]|B]; small. }
    assert (SB : stops (gaps_text b ++ [62] :: tail)) by (apply stops_gaps; auto; right; small).
    pose proof (import_rest (d_rest d) _ [] TG tail RO SB (import_end TG b _ _ GB EG (or_intror KG))) as MR.
    exists t0, rst, TG, tail. split; [exact E0|]. split; [congruence|]. split; auto. split; auto.
    intros old r. destruct (MR (List.concat (d_head d)) (wtok false (d_head d) (rest_text (d_rest d) ++ gaps_text b ++ [62] :: tail)) t0 eq_refl) as (f & o & E).
    exists f, o, (add_require (60 :: dotted_name d ++ [62]) r). split; [|reflexivity]. unfold parse_import. cbn [p_tok].
    rewrite (proj2 (kind_no TColon t0)), (proj2 (kind_iff TLess t0)) by congruence.
    rewrite (next_tok _ _ _ (wtok false (d_head d) (rest_text (d_rest d) ++ gaps_text b ++ [62] :: tail)) (rest_text (d_rest d) ++ gaps_text b ++ [62] :: tail))
      by (unfold rst; rewrite tk_gaps by auto; apply tk_ident; auto; now apply stops_rest).
    cbn [p_tok]. rewrite (proj2 (kind_iff TIdent _)) by reflexivity.
    change (t_text (wtok false (d_head d) (rest_text (d_rest d) ++ gaps_text b ++ [62] :: tail))) with (List.concat (d_head d)). rewrite E. unfold dotted_name. rewrite app_nil_r. reflexivity.
Qed.
Lemma line_import g1 ex g2 i g3 ps e more k c : line_end more -> line_ok (LImport g1 ex g2 i g3 ps e) -> Forall utf8 (gaps_text g3) -> Forall utf8 (text ps e) ->
  Yields more (effect (LImport g1 ex g2 i g3 ps e) k) c ->
  Yields ([10] :: gaps_text g1 ++ export_text ex ++ word "import" ++ gaps_text g2 ++ import_text i ++ gaps_text g3 ++ [59] :: text ps e ++ more) k c.
Proof.
  intros ML (G & EX & G2 & IO & G3 & P) U3 U Y. apply yields_start; auto.
  assert (IK : import_ok i) by (destruct i; cbn; tauto).
  destruct (import_decl i g3 ps e more IK G3 U3 P U) as (t0 & s0 & T & s' & E0 & T1 & T2 & T3 & PM).
  set (body := import_text i ++ gaps_text g3 ++ [59] :: text ps e ++ more) in *.
  destruct (first_stop (gaps_text g2 ++ body)) as [S1 S2].
  { apply stops_gaps; auto. destruct i; [left; tauto|right; unfold body; cbn; small|right; unfold body; cbn; small]. }
  assert (NX : forall t old, next {| p_tok := t; p_old := old; p_src := gaps_text g2 ++ body |} = Some {| p_tok := t0; p_old := t; p_src := s0 |})
    by (intros; apply next_tok; rewrite tk_gaps by auto; exact E0).
  assert (CE : effect (LImport g1 ex g2 i g3 ps e) k = import_effect i k) by (destruct k as [[[[? ?] ?] ?] ?]; destruct i; reflexivity). rewrite CE in Y.
  destruct ex as [gx|]; cbn [export_text List.app] in *.
  - destruct (EX gx eq_refl) as [N1 GX]. rewrite <- app_assoc.
    destruct (first_stop (gaps_text gx ++ word "import" ++ gaps_text g2 ++ body)) as [Z1 Z2]; [apply stops_gaps; auto|].
    destruct (tk_kw true "export" (gaps_text gx ++ word "import" ++ gaps_text g2 ++ body)) as [-> C1]; [cbn; auto|exact Z1|exact Z2|]. cbn [fst snd].
    destruct (tk_kw false "import" (gaps_text g2 ++ body)) as [E1 C2]; [cbn; auto|exact S1|exact S2|].
    apply from_line; auto. intros old r CR. destruct (PM (wtok false (word "import") (gaps_text g2 ++ body)) r) as (f & o & r' & EP & CP).
    exists f, {| p_tok := T; p_old := o; p_src := s' |}, r'. split.
    + unfold line_start. cbn [p_tok]. rewrite (proj2 (equals_no _ "module")), (proj2 (equals_no _ "import")), (proj2 (equals_iff _ "export")) by (try reflexivity; discriminate).
      rewrite (next_tok _ old _ (wtok false (word "import") (gaps_text g2 ++ body)) (gaps_text g2 ++ body)) by (rewrite tk_gaps by auto; exact E1). cbn [p_tok].
      rewrite (proj2 (equals_no _ "module")), (proj2 (equals_iff _ "import")) by (try reflexivity; discriminate). rewrite NX, EP. reflexivity.
    + cbn [p_tok p_src]. rewrite CP, CR. apply from_skip; auto. apply (yields_rest more ML _ _ Y _ T3).
  - destruct (tk_kw true "import" (gaps_text g2 ++ body)) as [-> C2]; [cbn; auto|exact S1|exact S2|]. cbn [fst snd].
    apply from_line; auto. intros old r CR. destruct (PM (wtok true (word "import") (gaps_text g2 ++ body)) r) as (f & o & r' & EP & CP).
    exists f, {| p_tok := T; p_old := o; p_src := s' |}, r'. split.
    + unfold line_start. cbn [p_tok]. rewrite (proj2 (equals_no _ "module")), (proj2 (equals_iff _ "import")) by (try reflexivity; discriminate). rewrite NX, EP. reflexivity.
    + cbn [p_tok p_src]. rewrite CP, CR. apply from_skip; auto. apply (yields_rest more ML _ _ Y _ T3).
Qed.

Lemma yields_line l more k c : line_end more -> line_ok l -> Forall utf8 (line_text l) -> Yields more (effect l k) c -> Yields ([10] :: line_text l ++ more) k c.
Proof.
  intros ML OK U Y. assert (SK : forall X, effect l k = X -> X = k -> Yields more k c) by (intros X E1 E2; rewrite <- E2, <- E1; exact Y).
  destruct l as [g ps e|g1 h g2 ps e|g1 h g2 kw g3 q name ps e|g1 g2 ps e|g1 g2 ps e|g1 ex g2 d p g3 ps e|g1 ex g2 i g3 ps e]; cbn [line_text] in *; rewrite <- !app_assoc.
  all: repeat match goal with H : Forall utf8 (_ ++ _) |- _ => apply Forall_app in H as [? H] end.
  - apply line_code; auto. apply (SK _ eq_refl). now destruct k as [[[[? ?] ?] ?] ?].
  - apply line_directive; auto. apply (SK _ eq_refl). now destruct k as [[[[? ?] ?] ?] ?].
  - apply line_include; auto.
  - apply line_export; auto. apply (SK _ eq_refl). now destruct k as [[[[? ?] ?] ?] ?].
  - apply line_fragment; auto. apply (SK _ eq_refl). now destruct k as [[[[? ?] ?] ?] ?].
  - apply line_module; auto.
  - apply line_import; auto.
Qed.
Lemma lines_end ls : line_end (lines_text ls).
Proof. destruct ls as [|l ls]; [now left|right]. unfold lines_text. cbn [flat_map List.app]. eauto. Qed.
Lemma yields_lines ls : Forall line_ok ls -> Forall utf8 (lines_text ls) -> forall k, Yields (lines_text ls) k (fold_left (fun k l => effect l k) ls k).
Proof.
  induction 1 as [|l ls OK F IH]; intros U k; [now apply from_eof|].
  cbn [lines_text flat_map fold_left] in *. fold (lines_text ls) in *. cbn [List.app] in *. inversion U as [|? ? _ U2]; subst. apply Forall_app in U2 as [U2 U3].
  apply yields_line; auto. apply lines_end.
Qed.
End Scan.

(** ** The main theorems *)

(** The bytes of a file with these lines, with or without a byte order mark. *)
Definition file_of (bom : bool) (ls : list line) : str := (if bom then [239; 187; 191] else []) ++ file_text ls.
Definition file_ok (bom : bool) (ls : list line) : Prop :=
  ls <> [] /\ Forall line_ok ls /\ Forall utf8 (tl (lines_text ls)) /\ (bom = false -> forall t, file_text ls <> 239 :: 187 :: 191 :: t).

Lemma skip_bom_of bom ls : file_ok bom ls -> skip_bom (file_of bom ls) = file_text ls.
Proof.
  intros (_ & _ & _ & B). unfold file_of. destruct bom; cbn [List.app].
  - reflexivity.
  - specialize (B eq_refl). unfold skip_bom. destruct (file_text ls) as [|a [|b [|c t]]]; auto.
    destruct (N.eqb_spec a 239), (N.eqb_spec b 187), (N.eqb_spec c 191); cbn [andb]; auto. subst. now destruct (B t).
Qed.
Lemma scan_core ft tags bom ls : file_ok bom ls ->
  exists out, scan ft tags true (file_of bom ls) = Some out /\ core out = fold_left (fun k l => effect ft l k) ls (core empty_result).
Proof.
  intros OK. pose proof (skip_bom_of bom ls OK) as SB. destruct OK as (NE & F & U & _).
  assert (UL : Forall utf8 (lines_text ls)).
  { destruct ls as [|l ls]; [congruence|]. unfold lines_text in *. cbn [flat_map List.app tl] in *. constructor; auto. cbn. lia. }
  assert (TX : [10] :: cut 0 [] (skip_bom (file_of bom ls)) = lines_text ls).
  { rewrite SB. unfold file_text. rewrite cut_concat by auto. destruct ls as [|l ls]; [congruence|]. reflexivity. }
  destruct (yields_lines ft tags ls F UL (core empty_result) no_tok empty_result eq_refl) as (out & [f R] & CO).
  exists out. split; auto. destruct (scan ft tags true (file_of bom ls)) as [out'|] eqn:S; [|now destruct (scan_ends ft tags true (file_of bom ls))].
  unfold scan in S. cbv zeta in S. rewrite TX in S. rewrite next_eq in S. cbn [p_src p_tok] in S.
  match type of S with loop ?x _ _ _ _ _ = _ =>
    pose proof (loop_more _ (f + x)%nat _ _ _ _ _ _ R (Nat.le_add_r _ _)) as R'; pose proof (loop_more _ (f + x)%nat _ _ _ _ _ _ S (Nat.le_add_l _ _)) as S' end.
  congruence.
Qed.

(** C65: the scanner reports exactly the included files, in the order of the lines. *)
Theorem includes_exact ft tags bom ls : file_ok bom ls ->
  exists out, scan ft tags true (file_of bom ls) = Some out /\ r_includes out = flat_map included ls.
Proof.
  intros OK. destruct (scan_core ft tags bom ls OK) as (out & S & C). exists out. split; auto.
  assert (X : forall k, fst (fst (fst (fst (fold_left (fun k l => effect ft l k) ls k)))) = fst (fst (fst (fst k))) ++ flat_map included ls).
  { clear. induction ls as [|l ls IH]; intros k; [cbn; now rewrite app_nil_r|]. cbn [fold_left flat_map]. rewrite IH, app_assoc. f_equal.
    destruct k as [[[[i pt] pr] rq] fc]. destruct l as [| | | | | |? ? ? []]; cbn; now rewrite ?app_nil_r. }
  specialize (X (core empty_result)). rewrite <- C in X. exact X.
Qed.

(** ** Modules *)

Lemma no_colon s m : Forall (fun c => c <> 58) s -> before_colon (s ++ m) = s ++ before_colon m.
Proof. induction 1 as [|c s N F IH]; [reflexivity|]. cbn [List.app before_colon]. destruct (N.eqb_spec c 58); [congruence|]. now rewrite IH. Qed.
Lemma identifier_no_colon w : Forall utf8 w -> identifier w -> Forall (fun c => c <> 58) (List.concat w) /\ List.concat w <> [].
Proof.
  intros U (NE & F & _). assert (X : forall w, Forall utf8 w -> Forall (fun c => wordc (code c)) w -> Forall (fun c => c <> 58) (List.concat w)).
  { clear. intros w U F. apply Forall_concat. rewrite Forall_forall in *. intros c I. specialize (U c I). specialize (F c I).
    unfold wordc, letter, digit in F. unfold utf8, cont in U.
    destruct c as [|a [|b [|d [|e [|? ?]]]]]; try tauto; cbn [code] in F; repeat constructor; lia. }
  split; [auto|]. destruct w as [|c w]; [congruence|]. inversion U as [|? ? U1 _]; subst. cbn. destruct c; [destruct U1|discriminate].
Qed.
Lemma dotted_colon d : dotted_ok d -> Forall utf8 (dotted_text d) -> Forall (fun c => c <> 58) (dotted_name d) /\ dotted_name d <> [].
Proof.
  intros [I R] U. unfold dotted_text in U. apply Forall_app in U as [U1 U2]. destruct (identifier_no_colon _ U1 I) as [N1 N2]. unfold dotted_name. split.
  - apply Forall_app. split; auto. clear - R U2. induction R as [|x l (_ & _ & I) R IH]; [constructor|]. cbn [flat_map] in *. apply Forall_app in U2 as [U2 U3].
    apply Forall_app. split; auto. constructor; [discriminate|]. repeat (apply Forall_app in U2 as [_ U2]). now apply identifier_no_colon.
  - destruct (List.concat (d_head d)); [congruence|discriminate].
Qed.

(** C66: the module that the file belongs to, whether the file is its interface, and the modules that the file needs. *)
Theorem modules_exact ft tags bom ls : file_ok bom ls ->
  exists out, scan ft tags true (file_of bom ls) = Some out
    /\ r_part out = match last_declared None ls with None => [] | Some m => m end
    /\ r_provides out = match ft, last_declared None ls with Cppm, Some m => m | _, _ => [] end
    /\ r_interface out = existsb is_interface ls
    /\ r_requires out = needed (match ft with Cppm => true | _ => false end) None ls.
Proof.
  intros OK. destruct (scan_core ft tags bom ls OK) as (out & S & C). exists out. split; auto.
  assert (X : forall ls, Forall line_ok ls -> Forall utf8 (lines_text ls) -> forall i pt pr rq fc cur full,
    pt = match full with None => [] | Some m => m end -> pr = match ft, full with Cppm, Some m => m | _, _ => [] end ->
    match full with None => cur = None | Some m => m <> [] /\ cur = Some (before_colon m) end ->
    forall i' pt' pr' rq' fc', (i', pt', pr', rq', fc') = fold_left (fun k l => effect ft l k) ls (i, pt, pr, rq, fc) ->
    pt' = match last_declared full ls with None => [] | Some m => m end /\ pr' = match ft, last_declared full ls with Cppm, Some m => m | _, _ => [] end
    /\ fc' = fc || existsb is_interface ls /\ rq' = rq ++ needed (match ft with Cppm => true | _ => false end) cur ls).
  { clear. intros ls F. induction F as [|l ls L F IH]; intros U i pt pr rq fc cur full E1 E2 E3 i' pt' pr' rq' fc' E.
    - cbn in E. injection E as -> -> -> -> ->. cbn. now rewrite orb_false_r, app_nil_r.
    - cbn [lines_text flat_map] in U. apply Forall_app in U as [U1 U2]. apply Forall_inv_tail in U1. specialize (IH U2). cbn [fold_left existsb] in *.
      destruct l as [g ps e|g1 h g2 ps e|g1 h g2 kw g3 q name ps e|g1 g2 ps e|g1 g2 ps e|g1 ex g2 d p g3 ps e|g1 ex g2 [d|g w|ga d gb] g3 ps e];
        cbn [effect last_declared declared is_interface needed orb] in *.
      1-5: apply (IH _ _ _ _ _ cur full E1 E2 E3 _ _ _ _ _ E).
      + destruct L as (_ & _ & _ & _ & DO & _). cbn [line_text] in U1. repeat match goal with H : Forall utf8 (_ ++ _) |- _ => apply Forall_app in H as [? H] end.
        destruct (dotted_colon d) as [D1 D2]; auto.
        assert (BC : before_colon (dotted_name d ++ part_name p) = dotted_name d) by (rewrite no_colon by auto; destruct p as [[[? ?] ?]|]; cbn; now rewrite app_nil_r).
        unfold module_effect in E. apply (IH _ _ _ _ _ (Some (dotted_name d)) (Some (dotted_name d ++ part_name p))) in E; auto.
        * destruct E as (-> & -> & -> & ->). split; auto. split; auto. split; [destruct ex, fc; reflexivity|]. unfold is_cppm. destruct ft; rewrite <- ?app_assoc; reflexivity.
        * unfold is_cppm. rewrite E2. now destruct ft.
        * rewrite BC. split; auto. intros X. apply app_eq_nil in X as [X _]. congruence.
      + apply (IH _ _ _ _ _ cur full E1 E2 E3) in E. rewrite <- app_assoc in E. exact E.
      + apply (IH _ _ _ _ _ cur full E1 E2 E3) in E. destruct E as (A & B & D & R). split; auto. split; auto. split; auto. rewrite R. subst pt. destruct full as [m|].
        * destruct E3 as [M ->]. destruct m as [|x m]; [congruence|]. now rewrite <- app_assoc.
        * subst cur. reflexivity.
      + apply (IH _ _ _ _ _ cur full E1 E2 E3) in E. rewrite <- app_assoc in E. exact E. }
  destruct OK as (NE & F & U & _). assert (UL : Forall utf8 (lines_text ls)).
  { destruct ls as [|l ls]; [congruence|]. unfold lines_text in *. cbn [flat_map List.app tl] in *. constructor; auto. cbn. lia. }
  unfold core in C. cbn [empty_result r_includes r_part r_provides r_requires r_interface] in C.
  apply (X ls F UL _ _ _ _ _ None None) in C; auto. now destruct ft.
Qed.

(** ** What the theorems leave out: texts where the scanner is wrong *)

Definition nl : str := [10].
Definition txt (l : list string) : str := flat_map (fun s => lit s ++ nl) l.
(** A null directive ([#] alone on its line): the scanner takes the [#] of the next line for what follows it, so the include is not found. *)
Theorem include_after_null_directive_refuted :
  let ls := [LDirective [] [[35]] [] [] End; LInclude [] [[35]] [] "include" [Blank [32]] false [[97]] [] End] in
  file_text ls = txt ["#"]%string ++ lit "#include <a>" /\ includes Cpp (file_text ls) = Some [] /\ flat_map included ls = [(false, lit "a")].
Proof. cbv zeta. repeat split; vm_compute; reflexivity. Qed.
(** A backslash and a newline at the beginning of a line: the next token does not count as the first one of its line. *)
Theorem include_after_splice_refuted :
  let ls := [LInclude [Splice] [[35]] [] "include" [Blank [32]] false [[97]] [] End] in
  file_text ls = txt ["\"]%string ++ lit "#include <a>" /\ includes Cpp (file_text ls) = Some [] /\ flat_map included ls = [(false, lit "a")].
Proof. cbv zeta. repeat split; vm_compute; reflexivity. Qed.
(** A comment that ends with two backslashes goes on in the next line for the compiler, but not for the scanner, which finds an
    include within the comment. *)
Theorem include_in_comment_refuted : includes Cpp (txt ["// C:\\"; "#include <a>"]%string) = Some [(false, lit "a")].
Proof. vm_compute. reflexivity. Qed.
(** The separator of digits is taken for the start of a character literal, so that the start of a comment is not seen. *)
Theorem include_after_digit_separator_refuted :
  includes Cpp (txt ["int a = 1'000; /*"; "#include <a>"; "*/"]%string) = Some [(false, lit "a")].
Proof. vm_compute. reflexivity. Qed.
(** A byte beyond ASCII at the end of a line that is not UTF-8: the newline is taken for a part of the character, and the next line for
    a part of the comment. *)
Theorem include_after_latin1_refuted : includes Cpp (lit "// caf" ++ [233] ++ nl ++ txt ["#include <a>"]%string) = Some [].
Proof. vm_compute. reflexivity. Qed.
(** A backslash and a newline within a word: two words for the scanner. *)
Theorem include_spliced_word_refuted : includes Cpp (txt ["#inc\"; "lude <a>"]%string) = Some [].
Proof. vm_compute. reflexivity. Qed.
(** Without the closing angle bracket everything up to the next one is the name. *)
Theorem include_unterminated_refuted :
  includes Cpp (txt ["#include <a"; "int b;"; "#include <c>"]%string) = Some [(false, lit "a" ++ nl ++ lit "int b;" ++ nl ++ lit "#include <c")].
Proof. vm_compute. reflexivity. Qed.
(** The path in the name of a header that is imported is lost. *)
Theorem import_header_path_refuted : option_map r_requires (scan Cpp false true (txt ["import <sys/types.h>;"]%string)) = Some [lit "<sys.h>"].
Proof. vm_compute. reflexivity. Qed.
(** A header that is imported with quotes is not recorded at all. *)
Theorem import_quoted_header_refuted : option_map r_requires (scan Cpp false true (lit "import a;")) = Some [lit "a"]
  /\ option_map r_requires (scan Cpp false true (lit "import " ++ [34] ++ lit "a.h" ++ [34; 59] ++ nl)) = Some [].
Proof. split; vm_compute; reflexivity. Qed.
(** The name of a partition with a dot is cut. *)
Theorem module_dotted_partition_refuted :
  option_map (fun r => (r_provides r, r_requires r)) (scan Cppm false true (txt ["export module a:b.c;"; "import :d.e;"]%string)) = Some (lit "a:b", [lit "a:d"]).
Proof. vm_compute. reflexivity. Qed.
(** A line that starts with [import] and a name, but is not an import (a declaration with a type of that name, say), swallows everything up
    to the next semicolon, directives too. *)
Theorem include_after_import_word_refuted : includes Cpp (txt ["import b"; "#include <a>"; "= 1;"; "#include <c>"]%string) = Some [(false, lit "c")].
Proof. vm_compute. reflexivity. Qed.

(** ** Examples *)
Module Demo.
Lemma not_begins w s : str_eqb (firstn (List.length (lit w)) (List.concat s)) (lit w) = false -> ~ begins w s.
Proof.
  intros F (l & rest & -> & C & _). rewrite concat_app, <- C, firstn_app, firstn_all, Nat.sub_diag in F. cbn [firstn] in F. rewrite app_nil_r, str_eqb_refl in F. discriminate.
Qed.
Lemma not_in (x : str) l : existsb (str_eqb x) l = false -> ~ In x l.
Proof. intros E I. assert (X : existsb (str_eqb x) l = true) by (apply existsb_exists; exists x; split; auto; apply str_eqb_refl). congruence. Qed.
Ltac no_pair := let l1 := fresh in let E := fresh in let A := fresh in let B := fresh in
  intros (l1 & ? & ? & ? & E & A & B);
  repeat (destruct l1 as [|? l1]; cbn in E; [first [discriminate E|injection E; intros; subst; cbn in A, B; discriminate]|try discriminate E; injection E as _ E]).
Ltac no_sub := let l1 := fresh in let E := fresh in
  intros (l1 & ? & E); repeat (destruct l1 as [|? l1]; cbn in E; [discriminate E|try discriminate E; injection E as _ E]).
Ltac quoting cx q := unfold quote_ok; let r := eval vm_compute in (rev (run_of cx)) in change (rev (run_of cx)) with r;
  first [left; split; [reflexivity|unfold raw_prefix; intuition discriminate]
        |right; split; [reflexivity|intros ? ? ?; first [discriminate|match goal with E : _ :: _ = _ :: _ |- _ => injection E as <- <-; unfold digit; lia end]]].
Ltac ok := repeat (match goal with
  | |- True => exact I
  | |- Forall _ (_ :: _) => constructor
  | |- Forall _ [] => constructor
  | |- _ /\ _ => split
  | |- pieces_ok _ _ _ => cbn [pieces_ok end_ok]
  | |- indent_ok _ => unfold indent_ok
  | |- hash_ok _ => unfold hash_ok; first [left; reflexivity|right; reflexivity]
  | |- line_ok _ => cbn [line_ok]
  | |- dotted_ok _ => unfold dotted_ok; cbn [d_head d_rest]
  | |- identifier _ => unfold identifier
  | |- something _ => exact I
  | |- _ = _ => reflexivity
  | |- _ = _ \/ _ => first [left; reflexivity|right]
  | |- gap_ok (Comment _) => cbn [gap_ok]; no_pair
  | |- gap_ok _ => cbn [gap_ok code]; unfold blank; try exact I; lia
  | |- atom_ok _ _ => cbn [atom_ok]
  | |- ends_well _ => let l := fresh in let E := fresh in intros l ? E; apply (f_equal (@rev atom)) in E; rewrite rev_app_distr in E; cbn in E; first [discriminate E|injection E as <- _; cbn; lia]
  | |- quote_ok ?cx ?q => quoting cx q
  | |- raw_ok _ _ _ _ => unfold raw_ok
  | |- raw_prefix _ => unfold raw_prefix; intuition fail
  | |- utf8 _ => cbn [utf8]; unfold cont; lia
  | |- ~ begins _ _ => apply not_begins; vm_compute; reflexivity
  | |- ~ exists l1 l2, _ => no_sub
  | |- ~ False => intros []
  | |- ~ In _ cpp_keywords => apply not_in; vm_compute; reflexivity
  | |- ~ In _ _ => cbn; intuition discriminate
  | |- _ <> [] => discriminate
  | |- forall t, _ <> 95 :: 95 :: t => intros ?; vm_compute; discriminate
  | |- forall g, Some _ = _ -> _ => let E := fresh in intros ? E; injection E as <-
  | |- forall a b w, Some _ = _ -> _ => let E := fresh in intros ? ? ? E; injection E as <- <- <-
  | |- forall g, None = _ -> _ => discriminate
  | |- forall c, In c _ -> exists n, _ => intros ? D; cbn in D; repeat (destruct D as [<-|D]; [eexists; split; [reflexivity|]|]); try contradiction D
  | |- forall n t, _ :: _ = _ -> _ => let E := fresh in intros ? ? E; injection E as <- _
  | |- forall n t, [] = _ -> _ => let E := fresh in intros ? ? E; discriminate E
  | |- (_ < N.to_nat _)%nat => apply Nat.ltb_lt; vm_compute; reflexivity
  | |- _ -> _ <> _ /\ _ <> _ => intros; split
  | |- _ => progress cbn [fst snd code first text flat_map piece_text gap_text ending_text List.app]
  | |- _ => unfold wordc, letter, digit, white_c, blank; lia
  end).
Definition two (c : ch) : bool := match c with [a] => (0 <? a) && (a <? 128) | [a; b] => (192 <=? a) && (a <? 224) && (128 <=? b) && (b <? 192) | _ => false end.
Lemma small_utf8 s : forallb two s = true -> Forall utf8 s.
Proof.
  intros F. apply Forall_forall. intros c I. rewrite forallb_forall in F. specialize (F c I). destruct c as [|a [|b [|? ?]]]; try discriminate; cbn in *; unfold cont.
  - destruct (N.ltb_spec 0 a), (N.ltb_spec a 128); try discriminate. lia.
  - destruct (N.leb_spec 192 a), (N.ltb_spec a 224), (N.leb_spec 128 b), (N.ltb_spec b 192); try discriminate. lia.
Qed.
Definition w (s : string) : list ch := word s.
Definition code_of (s : string) : list piece := map (fun c => if lead c =? 32 then Gap (Blank c) else Neutral c) (word s).
Definition sp : gap := Blank [32].
(** An include, one in a comment, one in a raw string, two more with blanks, comments, a digraph and a splice. *)
Definition file1 : list line := Eval vm_compute in
  [ LInclude [] [[35]] [] "include" [sp] false (w "vector") [] (LineComment [Plain [32]; Plain [195; 164]]);
    LCode [] [] (LineComment (map Plain (w " #include <no1>")));
    LCode [Comment (w " one " ++ [[10]] ++ w "#include <no2>" ++ [[10]])] [] End;
    LCode [] (code_of "auto s = " ++ [Raw [82] (w "x") (w " )y" ++ [[10]] ++ w "#include <no3>"); Neutral [59]]) End;
    LCode [sp] (code_of "int c =" ++ [Quoted 39 [Esc [39]]; Neutral [59]; Gap sp; Quoted 34 (map Plain (w "// x"))]) End;
    LDirective [] [[35]] [] (code_of "if 1") End;
    LInclude [sp; Comment (w "x")] [[37]; [58]] [sp; Splice; sp] "import" [] true (w "d/a b.h") [Gap sp] End;
    LDirective [] [[35]] [] (code_of "error don") (Open 39 [Plain [116]]);
    LInclude [] [[35]] [] "include" [Splice] true (w "e.h") [] End ].
Example file1_ok : file_ok false file1.
Proof.
  unfold file_ok, file1. split; [discriminate|]. split; [ok|split; [|intros _ t; discriminate]].
  apply small_utf8. vm_compute. reflexivity.
Qed.
Example file1_includes : includes Cpp (file_of false file1) = Some [(false, lit "vector"); (true, lit "d/a b.h"); (true, lit "e.h")].
Proof. vm_compute. reflexivity. Qed.
Example file1_said : flat_map included file1 = [(false, lit "vector"); (true, lit "d/a b.h"); (true, lit "e.h")].
Proof. vm_compute. reflexivity. Qed.
(** A module and its imports. *)
Definition file2 : list line := Eval vm_compute in
  [ LFragment [] [] [Neutral [59]] End;
    LInclude [] [[35]] [] "include" [] false (w "a") [] End;
    LModule [] (Some [sp]) [sp] {| d_head := w "app"; d_rest := [([], [sp], w "net")] |} (Some ([sp], [], w "http")) [] [] End;
    LImport [] None [sp] (IName {| d_head := w "std"; d_rest := [] |}) [] [] (LineComment (map Plain (w " x")));
    LImport [sp] (Some [sp; Splice]) [] (IPart [sp] (w "base")) [sp] [] End;
    LImport [] None [] (IHeader [] {| d_head := w "vector"; d_rest := [([], [], w "h")] |} []) [] [] End;
    LExport [] [sp] (code_of "int f();") End ].
Example file2_ok : file_ok true file2.
Proof.
  unfold file_ok, file2. split; [discriminate|]. split; [ok|split; [|discriminate]].
  apply small_utf8. vm_compute. reflexivity.
Qed.
Example file2_modules : scan Cppm false true (file_of true file2)
  = Some {| r_includes := [(false, lit "a")]; r_part := lit "app.net:http"; r_provides := lit "app.net:http";
            r_requires := [lit "std"; lit "app.net:base"; lit "<vector.h>"]; r_interface := true; r_qobject := false; r_plugin := false |}.
Proof. vm_compute. reflexivity. Qed.
Example file2_said : last_declared None file2 = Some (lit "app.net:http") /\ needed true None file2 = [lit "std"; lit "app.net:base"; lit "<vector.h>"]
  /\ needed false None file2 = [lit "app.net:http"; lit "std"; lit "app.net:base"; lit "<vector.h>"].
Proof. vm_compute. repeat split; reflexivity. Qed.
End Demo.

Print Assumptions scan_ends.
Print Assumptions includes_exact.
Print Assumptions modules_exact.
