(** Names of architectures, operating systems and identifiers (C109 to C112). *)

From Coq Require Import String Ascii.
From Coq Require Import List Bool Arith NArith Lia.
From Verif Require Import Str PlatformsModel.
Import ListNotations.
Local Open Scope N_scope.

(** * Specification *)

Definition txt (s : String.string) : str := List.map N_of_ascii (list_ascii_of_string s).
Arguments txt s%string.

(** The same text, capital letters made small. *)
Definition small (s s' : str) : Prop :=
  Forall2 (fun c d => (65 <= c <= 90 /\ d = c + 32) \/ (~ 65 <= c <= 90 /\ d = c)) s s'.

(** The architectures: the name and its aliases. *)
Definition groups : list (str * list str) :=
  [ (txt "x86", List.map txt ["i386"; "i486"; "i586"; "i686"; "ia32"; "ia-32"; "x86_32"; "x86-32"; "intel32"; "mingw32"]%string);
    (txt "x86_64", List.map txt ["x86-64"; "x64"; "amd64"; "ia32e"; "em64t"; "intel64"; "mingw64"]%string);
    (txt "arm64", [txt "aarch64"]);
    (txt "ia64", [txt "ia-64"; txt "itanium"]);
    (txt "ppc", [txt "powerpc"]);
    (txt "ppc64", [txt "ppc64le"; txt "powerpc64"; txt "powerpc64le"]);
    (txt "mips", [txt "mipseb"; txt "mipsel"]);
    (txt "mips64", [txt "mips64eb"; txt "mips64el"]) ].

(** * Proofs: architectures *)

Lemma small_lower s : small s (lower s).
Proof.
  induction s as [|c s IH]; [constructor|]. cbn [lower List.map]. constructor; [|exact IH]. unfold lower_char.
  destruct (N.leb_spec 65 c) as [L|L]; destruct (N.leb_spec c 90) as [M|M]; cbn [andb]; [left|right|right|right]; split; try lia; reflexivity.
Qed.
Lemma small_unique s a b : small s a -> small s b -> a = b.
Proof.
  intro H. revert b. induction H as [|c d s s' E H IH]; intros b B; inversion B as [|? ? ? ? E' B']; subst; [reflexivity|].
  f_equal; [|apply IH; exact B']. destruct E as [[A1 ->]|[A1 ->]]; destruct E' as [[A2 ->]|[A2 ->]]; try reflexivity; contradiction.
Qed.
Lemma small_is_lower s s' : small s s' <-> s' = lower s.
Proof. split; [intro H; exact (small_unique _ _ _ H (small_lower s))|intros ->; apply small_lower]. Qed.

Lemma find_arch_spec table s : match find_arch table s with
  | Some k => exists aliases, In (k, aliases) table /\ In (lower s) aliases
  | None => forall k aliases, In (k, aliases) table -> ~ In (lower s) aliases
  end.
Proof.
  induction table as [|[k al] table IH]; cbn [find_arch]; [intros k al []|].
  destruct (existsb (str_eqb (lower s)) al) eqn:E.
  - apply existsb_exists in E. destruct E as (x & I1 & E). apply str_eqb_eq in E. subst x. exists al. split; [left; reflexivity|exact I1].
  - destruct (find_arch table s) as [k'|].
    + destruct IH as (al' & I1 & I2). exists al'. split; [right; exact I1|exact I2].
    + intros k' al' [X|X] I2; [|exact (IH k' al' X I2)]. injection X as <- <-. rewrite <- not_true_iff_false in E. apply E.
      apply existsb_exists. exists (lower s). split; [exact I2|apply str_eqb_refl].
Qed.

Lemma tables_same k al : In (k, al) arch_table <-> In (k, al) groups.
Proof. vm_compute. tauto. Qed.

(** No alias is in two groups, and no name of a group is an alias. *)
Definition check_groups : bool :=
  forallb (fun g => forallb (fun h =>
    (str_eqb (fst g) (fst h) || forallb (fun a => negb (existsb (str_eqb a) (snd h))) (snd g))
    && negb (existsb (str_eqb (fst g)) (snd h))) groups) groups.

Lemma groups_apart g h a : In g groups -> In h groups -> In a (snd g) -> In a (snd h) -> fst g = fst h.
Proof.
  intros I1 I2 I3 I4. assert (C : check_groups = true) by (vm_compute; reflexivity). unfold check_groups in C.
  rewrite forallb_forall in C. specialize (C g I1). rewrite forallb_forall in C. specialize (C h I2). apply andb_true_iff in C. destruct C as [C _].
  apply orb_true_iff in C. destruct C as [C|C]; [apply str_eqb_eq; exact C|]. rewrite forallb_forall in C. specialize (C a I3).
  apply negb_true_iff in C. rewrite <- not_true_iff_false in C. exfalso. apply C. apply existsb_exists. exists a. split; [exact I4|apply str_eqb_refl].
Qed.
Lemma names_apart g h : In g groups -> In h groups -> ~ In (fst g) (snd h).
Proof.
  intros I1 I2 I3. assert (C : check_groups = true) by (vm_compute; reflexivity). unfold check_groups in C.
  rewrite forallb_forall in C. specialize (C g I1). rewrite forallb_forall in C. specialize (C h I2). apply andb_true_iff in C. destruct C as [_ C].
  apply negb_true_iff in C. rewrite <- not_true_iff_false in C. apply C. apply existsb_exists. exists (fst g). split; [exact I3|apply str_eqb_refl].
Qed.

(** C109. An alias, in any case, gives the name of its architecture; any other text is
    left as it is. *)
Theorem canonical_exact s s' : small s s' ->
  (forall g, In g groups -> In s' (snd g) -> canonical s = fst g)
  /\ ((forall g, In g groups -> ~ In s' (snd g)) -> canonical s = s).
Proof.
  intro SM. apply small_is_lower in SM. subst s'. unfold canonical. pose proof (find_arch_spec arch_table s) as F.
  destruct (find_arch arch_table s) as [k|]; split.
  - intros g I1 I2. destruct F as (al & I3 & I4). apply tables_same in I3. symmetry. exact (groups_apart g (k, al) _ I1 I3 I2 I4).
  - intro H. destruct F as (al & I3 & I4). apply tables_same in I3. exfalso. exact (H (k, al) I3 I4).
  - intros [k al] I1 I2. exfalso. apply tables_same in I1. exact (F k al I1 I2).
  - reflexivity.
Qed.

Lemma names_small g : In g groups -> lower (fst g) = fst g.
Proof.
  intro I1. assert (C : forallb (fun g => str_eqb (lower (fst g)) (fst g)) groups = true) by (vm_compute; reflexivity).
  rewrite forallb_forall in C. apply str_eqb_eq. apply C. exact I1.
Qed.

(** The name of an architecture is its own canonical name. *)
Theorem canonical_idempotent s : canonical (canonical s) = canonical s.
Proof.
  destruct (canonical_exact s (lower s) (small_lower s)) as [A B].
  assert (D : (exists g, In g groups /\ In (lower s) (snd g)) \/ forall g, In g groups -> ~ In (lower s) (snd g)).
  { pose proof (find_arch_spec arch_table s) as F. destruct (find_arch arch_table s) as [k|].
    - left. destruct F as (al & I3 & I4). exists (k, al). split; [apply tables_same; exact I3|exact I4].
    - right. intros [k al] I1 I2. apply tables_same in I1. exact (F k al I1 I2). }
  destruct D as [(g & I1 & I2)|D]; [|rewrite (B D); exact (B D)].
  rewrite (A g I1 I2). apply (canonical_exact (fst g) (fst g)); [apply small_is_lower; symmetry; apply names_small; exact I1|].
  intros h I3. apply names_apart; assumption.
Qed.

(** Names of different architectures stay different. *)
Theorem canonical_apart g h a b : In g groups -> In h groups -> fst g <> fst h ->
  In a (fst g :: snd g) -> In b (fst h :: snd h) -> canonical a <> canonical b.
Proof.
  assert (K : forall g a, In g groups -> In a (fst g :: snd g) -> canonical a = fst g).
  { clear. intros g a I1 I2. assert (C : forallb (fun g => forallb (fun a => str_eqb (canonical a) (fst g)) (fst g :: snd g)) groups = true) by (vm_compute; reflexivity).
    rewrite forallb_forall in C. specialize (C g I1). rewrite forallb_forall in C. specialize (C a I2). apply str_eqb_eq. exact C. }
  intros I1 I2 NE I3 I4. rewrite (K g a I1 I3), (K h b I2 I4). exact NE.
Qed.

(** Capitals matter for the name, and do not for its aliases. *)
Theorem capitals_refuted : exists name alias g,
  In g groups /\ small name (fst g) /\ (exists a, small alias a /\ In a (snd g) /\ alias <> a)
  /\ canonical alias = fst g /\ canonical name <> fst g.
Proof.
  exists (txt "X86_64"), (txt "AMD64"), (txt "x86_64", List.map txt ["x86-64"; "x64"; "amd64"; "ia32e"; "em64t"; "intel64"; "mingw64"]%string).
  split; [right; left; reflexivity|]. split; [apply small_is_lower; reflexivity|].
  split; [exists (txt "amd64"); split; [apply small_is_lower; reflexivity|split; [vm_compute; tauto|vm_compute; discriminate]]|].
  split; [vm_compute; reflexivity|vm_compute; discriminate].
Qed.

(** The name for the target is one for the same architecture. *)
Theorem target_same_partial architecture endianness vendor system abi :
  canonical architecture <> txt "armv7a" ->
  canonical (target_name architecture endianness vendor system abi) = canonical architecture.
Proof.
  intro NA. unfold target_name. pose proof (canonical_idempotent architecture) as ID.
  assert (E0 : str_eqb (canonical architecture) armv7a = false) by (apply str_eqb_neq; exact NA). rewrite E0. cbn [andb].
  generalize dependent (canonical architecture). intros arch _ ID E0.
  assert (X : forall b, (str_eqb arch mips || str_eqb arch mips64) && b = true -> arch = mips \/ arch = mips64).
  { intros b H. apply andb_true_iff in H. destruct H as [H _]. apply orb_true_iff in H. destruct H as [H|H]; apply str_eqb_eq in H; auto. }
  destruct (str_eqb arch arm64 && _) eqn:E1; [apply andb_true_iff in E1; destruct E1 as [E1 _]; apply str_eqb_eq in E1; subst arch; vm_compute; reflexivity|].
  destruct (str_eqb arch x86) eqn:E2; [apply str_eqb_eq in E2; subst arch; destruct (_ || _); vm_compute; reflexivity|].
  destruct ((str_eqb arch mips || str_eqb arch mips64) && str_eqb endianness big) eqn:E3; [destruct (X _ E3) as [->| ->]; vm_compute; reflexivity|].
  destruct ((str_eqb arch mips || str_eqb arch mips64) && str_eqb endianness little) eqn:E4; [destruct (X _ E4) as [->| ->]; vm_compute; reflexivity|].
  destruct (str_eqb arch ppc) eqn:E5; [apply str_eqb_eq in E5; subst arch; vm_compute; reflexivity|].
  destruct (str_eqb arch ppc64 && _) eqn:E6; [apply andb_true_iff in E6; destruct E6 as [E6 _]; apply str_eqb_eq in E6; subst arch; vm_compute; reflexivity|].
  exact ID.
Qed.

Theorem target_same_refuted : exists architecture endianness vendor system abi,
  canonical (target_name architecture endianness vendor system abi) <> canonical architecture.
Proof. exists (txt "armv7a"), [], (txt "apple"), [], []. vm_compute. discriminate. Qed.

(** The name for the target tells the endianness, for MIPS and 64-bit PowerPC. *)
Theorem target_endianness architecture vendor system abi :
  In (canonical architecture) [txt "mips"; txt "mips64"; txt "ppc64"] ->
  target_name architecture (txt "big") vendor system abi <> target_name architecture (txt "little") vendor system abi
  /\ (canonical architecture <> txt "ppc64" -> target_name architecture (txt "big") vendor system abi = canonical architecture ++ txt "eb"
      /\ target_name architecture (txt "little") vendor system abi = canonical architecture ++ txt "el")
  /\ (canonical architecture = txt "ppc64" -> target_name architecture (txt "big") vendor system abi = txt "ppc64"
      /\ target_name architecture (txt "little") vendor system abi = txt "ppc64le")
  /\ (forall e, e <> txt "big" -> e <> txt "little" -> target_name architecture e vendor system abi = canonical architecture).
Proof.
  assert (K : forall e, target_name architecture e vendor system abi = target_name architecture e vendor system abi) by reflexivity.
  assert (F : forall arch e, canonical architecture = arch -> In arch [txt "mips"; txt "mips64"; txt "ppc64"] ->
    target_name architecture e vendor system abi =
      if str_eqb arch (txt "ppc64") then (if str_eqb e (txt "little") then txt "ppc64le" else txt "ppc64")
      else if str_eqb e (txt "big") then arch ++ txt "eb" else if str_eqb e (txt "little") then arch ++ txt "el" else arch).
  { intros arch e E I1. unfold target_name. rewrite E. change big with (txt "big"). change little with (txt "little").
    generalize (str_eqb e (txt "big")) (str_eqb e (txt "little")). intros b l. clear - I1.
    destruct I1 as [<-|[<-|[<-|[]]]]; destruct b, l; reflexivity. }
  clear K. intro I1. remember (canonical architecture) as arch eqn:E. symmetry in E.
  rewrite !(F arch) by (exact eq_refl || assumption). split; [|split; [|split]].
  - destruct I1 as [<-|[<-|[<-|[]]]]; vm_compute; discriminate.
  - intro NE. destruct I1 as [<-|[<-|[<-|[]]]]; [split; reflexivity|split; reflexivity|contradiction].
  - intro X. rewrite X. split; reflexivity.
  - intros e H1 H2. rewrite (F arch) by (exact eq_refl || assumption). apply str_eqb_neq in H1. apply str_eqb_neq in H2. rewrite H1, H2.
    destruct I1 as [<-|[<-|[<-|[]]]]; reflexivity.
Qed.

(** The other names for targets. *)
Theorem target_names architecture endianness vendor system abi :
  let qnx := system = txt "nto" \/ exists r, abi = txt "qnx" ++ r in
  let apple := vendor = txt "apple" \/ In system (List.map txt ["darwin"; "macosx"; "ios"; "tvos"; "watchos"]%string) \/ abi = txt "macho" in
  let result := target_name architecture endianness vendor system abi in
  (canonical architecture = txt "armv7a" -> (apple -> result = txt "armv7") /\ (~ apple -> qnx -> result = txt "arm") /\ (~ apple -> ~ qnx -> result = txt "armv7a"))
  /\ (canonical architecture = txt "arm64" -> (qnx -> result = txt "aarch64") /\ (~ qnx -> result = txt "arm64"))
  /\ (canonical architecture = txt "x86" -> (qnx -> result = txt "i586") /\ (~ qnx -> result = txt "i386"))
  /\ (canonical architecture = txt "ppc" -> result = txt "powerpc")
  /\ (~ In (canonical architecture) (List.map txt ["armv7a"; "arm64"; "x86"; "ppc"; "ppc64"; "mips"; "mips64"]%string) -> result = canonical architecture).
Proof.
  intros q a result.
  assert (Q : q <-> str_eqb system nto || starts_with PlatformsModel.qnx abi = true).
  { unfold q. rewrite orb_true_iff, str_eqb_eq, starts_with_spec. reflexivity. }
  assert (AP : a <-> str_eqb vendor PlatformsModel.apple || str_eqb system darwin || str_eqb system macosx || str_eqb system ios
                  || str_eqb system tvos || str_eqb system watchos || str_eqb abi macho = true).
  { unfold a. rewrite !orb_true_iff, !str_eqb_eq. cbn [List.map In]. change (txt "darwin") with darwin. change (txt "macosx") with macosx.
    change (txt "ios") with ios. change (txt "tvos") with tvos. change (txt "watchos") with watchos. change (txt "macho") with macho. change (txt "apple") with PlatformsModel.apple.
    clear. split; [intros [H|[[H|[H|[H|[H|[H|[]]]]]]|H]]; auto 12|].
    intros [[[[[[H|H]|H]|H]|H]|H]|H]; auto 12. }
  assert (R : result = target_name architecture endianness vendor system abi) by reflexivity. clearbody result q a. unfold target_name in R. cbv zeta in R.
  remember (str_eqb system nto || starts_with PlatformsModel.qnx abi) as bq eqn:EQ. clear EQ.
  remember (str_eqb vendor PlatformsModel.apple || str_eqb system darwin || str_eqb system macosx || str_eqb system ios
                  || str_eqb system tvos || str_eqb system watchos || str_eqb abi macho) as ba eqn:EA. clear EA.
  generalize dependent (canonical architecture). intros arch R. split; [|split; [|split; [|split]]].
  - intros ->. split; [|split]; intros; destruct ba, bq; try (exfalso; tauto); subst result; try reflexivity; exfalso; intuition discriminate.
  - intros ->. split; intros; destruct ba, bq; subst result; try reflexivity; exfalso; intuition discriminate.
  - intros ->. split; intros; destruct ba, bq; subst result; try reflexivity; exfalso; intuition discriminate.
  - intros ->. subst result. destruct ba, bq, (str_eqb endianness big), (str_eqb endianness little); reflexivity.
  - intro NI. subst result.
    assert (NE : forall n, In n (List.map txt ["armv7a"; "arm64"; "x86"; "ppc"; "ppc64"; "mips"; "mips64"]%string) -> str_eqb arch n = false).
    { intros n I1. apply str_eqb_neq. intros ->. contradiction. }
    rewrite (NE armv7a), (NE arm64), (NE x86), (NE ppc), (NE ppc64), (NE mips), (NE mips64) by (vm_compute; tauto). reflexivity.
Qed.

(** * Operating systems *)

(** C111. The identifiers of an operating system begin with its name; with each of them,
    they have all the identifiers of that one, in order, at their end; none is there
    twice. *)
Definition known_os : list str :=
  List.map txt ["ios-simulator"; "tvos-simulator"; "watchos-simulator"; "macos"; "ios"; "tvos"; "watchos"; "darwin"; "freebsd"; "netbsd"; "openbsd";
                "android"; "bsd"; "aix"; "hpux"; "solaris"; "linux"; "hurd"; "qnx"; "integrity"]%string.

Lemma os_known name : In name known_os \/ os_parents name = [].
Proof.
  destruct (in_dec str_dec name known_os) as [I1|NI]; [left; exact I1|right].
  assert (NE : forall n, In n known_os -> str_eqb name n = false).
  { intros n I1. apply str_eqb_neq. intros ->. contradiction. }
  unfold os_parents. cbn [existsb].
  repeat match goal with |- context [str_eqb name ?n] => rewrite (NE n) by (vm_compute; tauto) end. reflexivity.
Qed.

Lemma os_unknown name d : os_parents name = [] -> os_identifiers (S d) name = Some [name].
Proof. intro E. cbn [os_identifiers]. rewrite E. reflexivity. Qed.

Definition os_ids (name : str) : list str := match os_identifiers 5 name with Some l => l | None => [] end.

Definition gather (f : str -> option (list str)) (ps : list str) : option (list str) :=
  fold_right (fun p r => match f p, r with Some a, Some b => Some (a ++ b) | _, _ => None end) (Some []) ps.

Lemma os_next d name : os_identifiers (S d) name = option_map (cons name) (gather (os_identifiers d) (os_parents name)).
Proof. reflexivity. Qed.

Lemma gather_more f g ps r : (forall p l, f p = Some l -> g p = Some l) -> gather f ps = Some r -> gather g ps = Some r.
Proof.
  intro H. revert r. unfold gather. induction ps as [|p ps IH]; intros r Hr; cbn [fold_right] in *; [exact Hr|].
  destruct (f p) as [x|] eqn:E; [|discriminate]. rewrite (H _ _ E).
  match type of Hr with match ?f with _ => _ end = _ => destruct f as [y|] eqn:E2; [|discriminate] end. rewrite (IH _ eq_refl). exact Hr.
Qed.

Lemma deeper d : forall name l, os_identifiers d name = Some l -> os_identifiers (S d) name = Some l.
Proof.
  induction d as [|d IH]; intros name l H; [discriminate|]. rewrite os_next in H |- *.
  destruct (gather (os_identifiers d) (os_parents name)) as [r|] eqn:E; [|discriminate].
  rewrite (gather_more _ _ _ _ IH E). exact H.
Qed.

Theorem os_identifiers_end name d : (5 <= d)%nat -> os_identifiers d name = Some (os_ids name).
Proof.
  intro L. assert (B : os_identifiers 5 name = Some (os_ids name)).
  { destruct (os_known name) as [I1|E].
    - assert (C : forallb (fun n => match os_identifiers 5 n with Some _ => true | None => false end) known_os = true) by (vm_compute; reflexivity).
      rewrite forallb_forall in C. specialize (C name I1). unfold os_ids. destruct (os_identifiers 5 name); [reflexivity|discriminate].
    - unfold os_ids. rewrite (os_unknown name 4 E). reflexivity. }
  induction L as [|d L IH]; [exact B|]. apply deeper. exact IH.
Qed.

Fixpoint is_suffix (a b : list str) : bool :=
  (if list_eq_dec str_dec a b then true else false) || match b with [] => false | _ :: r => is_suffix a r end.
Lemma is_suffix_ok a b : is_suffix a b = true -> exists pre, b = pre ++ a.
Proof.
  induction b as [|x b IH]; cbn [is_suffix]; destruct (list_eq_dec str_dec a _) as [E|E]; cbn [orb]; intro H.
  - exists []. symmetry. exact E.
  - discriminate.
  - exists []. symmetry. exact E.
  - destruct (IH H) as [pre ->]. exists (x :: pre). reflexivity.
Qed.

Fixpoint distinct (l : list str) : bool := match l with [] => true | x :: r => negb (existsb (str_eqb x) r) && distinct r end.
Lemma distinct_ok l : distinct l = true -> NoDup l.
Proof.
  induction l as [|x l IH]; cbn [distinct]; intro H; [constructor|]. apply andb_true_iff in H. destruct H as [H1 H2]. constructor; [|auto].
  intro I1. apply negb_true_iff in H1. rewrite <- not_true_iff_false in H1. apply H1. apply existsb_exists. exists x. split; [exact I1|apply str_eqb_refl].
Qed.

Theorem os_identifiers_closed name :
  (exists r, os_ids name = name :: r) /\ NoDup (os_ids name)
  /\ (forall x, In x (os_ids name) -> exists pre, os_ids name = pre ++ os_ids x)
  /\ (~ In name known_os -> os_ids name = [name]).
Proof.
  destruct (os_known name) as [I1|E].
  - assert (C : forallb (fun n => str_eqb (hd [] (os_ids n)) n && distinct (os_ids n) && negb (match os_ids n with [] => true | _ => false end)
               && forallb (fun x => is_suffix (os_ids x) (os_ids n)) (os_ids n)) known_os = true) by (vm_compute; reflexivity).
    rewrite forallb_forall in C. specialize (C name I1). rewrite !andb_true_iff in C. destruct C as (((C1 & C2) & C3) & C4).
    split; [|split; [|split]].
    + apply str_eqb_eq in C1. destruct (os_ids name) as [|y r]; [discriminate|]. cbn [hd] in C1. subst y. exists r. reflexivity.
    + apply distinct_ok. exact C2.
    + intros x I2. rewrite forallb_forall in C4. apply is_suffix_ok. apply C4. exact I2.
    + contradiction.
  - assert (O : os_ids name = [name]) by (unfold os_ids; rewrite (os_unknown name 4 E); reflexivity). rewrite O.
    split; [exists []; reflexivity|]. split; [repeat constructor; simpl; tauto|]. split; [|reflexivity].
    intros x [<-|[]]. exists []. symmetry. exact O.
Qed.

(** What is what. *)
Theorem os_families name :
  (In (txt "unix") (os_ids name) <-> name = txt "unix" \/ In name known_os)
  /\ (In (txt "darwin") (os_ids name) <-> In name (List.map txt ["darwin"; "macos"; "ios"; "tvos"; "watchos"; "ios-simulator"; "tvos-simulator"; "watchos-simulator"]%string))
  /\ (In (txt "bsd") (os_ids name) <-> In name (List.map txt ["bsd"; "freebsd"; "netbsd"; "openbsd"]%string) \/ In (txt "darwin") (os_ids name))
  /\ (In (txt "linux") (os_ids name) <-> name = txt "linux" \/ name = txt "android").
Proof.
  assert (MEM : forall (x : str) l, In x l <-> existsb (str_eqb x) l = true).
  { intros x l. rewrite existsb_exists. split; [intro H; exists x; split; [exact H|apply str_eqb_refl]|]. intros (y & I1 & E). apply str_eqb_eq in E. subst y. exact I1. }
  destruct (os_known name) as [I1|E].
  - assert (C : forall n, In n known_os ->
        existsb (str_eqb (txt "unix")) (os_ids n) = true
        /\ existsb (str_eqb (txt "darwin")) (os_ids n) = existsb (str_eqb n) (List.map txt ["darwin"; "macos"; "ios"; "tvos"; "watchos"; "ios-simulator"; "tvos-simulator"; "watchos-simulator"]%string)
        /\ existsb (str_eqb (txt "bsd")) (os_ids n) = existsb (str_eqb n) (List.map txt ["bsd"; "freebsd"; "netbsd"; "openbsd"]%string) || existsb (str_eqb (txt "darwin")) (os_ids n)
        /\ existsb (str_eqb (txt "linux")) (os_ids n) = str_eqb n (txt "linux") || str_eqb n (txt "android")).
    { intros n I2. cbn [known_os List.map In] in I2. repeat (destruct I2 as [<-|I2]; [vm_compute; auto|]). destruct I2. }
    destruct (C name I1) as (C1 & C2 & C3 & C4).
    split; [split; [intros _; right; exact I1|intros _; apply MEM; exact C1]|].
    split; [rewrite !MEM, C2; reflexivity|]. split; [rewrite !MEM, C3, orb_true_iff; reflexivity|]. rewrite MEM, C4, orb_true_iff, !str_eqb_eq. reflexivity.
  - assert (O : os_ids name = [name]) by (unfold os_ids; rewrite (os_unknown name 4 E); reflexivity). rewrite O.
    assert (NK : ~ In name known_os).
    { intro I1. assert (C : forallb (fun n => match os_parents n with [] => false | _ => true end) known_os = true) by (vm_compute; reflexivity).
      rewrite forallb_forall in C. specialize (C name I1). rewrite E in C. discriminate. }
    assert (SUB : forall l, forallb (fun n => existsb (str_eqb n) known_os) l = true -> ~ In name l).
    { intros l H I1. rewrite forallb_forall in H. apply H in I1. apply MEM in I1. contradiction. }
    pose proof (SUB (List.map txt ["darwin"; "macos"; "ios"; "tvos"; "watchos"; "ios-simulator"; "tvos-simulator"; "watchos-simulator"]%string) eq_refl) as S1.
    pose proof (SUB (List.map txt ["bsd"; "freebsd"; "netbsd"; "openbsd"]%string) eq_refl) as S2.
    pose proof (SUB [txt "linux"; txt "android"; txt "darwin"; txt "bsd"] eq_refl) as S3.
    assert (S3' : name <> txt "linux" /\ name <> txt "android" /\ name <> txt "darwin" /\ name <> txt "bsd") by (simpl in S3; intuition congruence).
    destruct S3' as (N1 & N2 & N3 & N4).
    split; [split; [intros [X|[]]; left; exact X|intros [->|X]; [left; reflexivity|contradiction]]|].
    split; [split; [intros [X|[]]; contradiction|contradiction]|].
    split; [split; [intros [X|[]]; contradiction|intros [X|[X|[]]]; contradiction]|].
    split; [intros [X|[]]; contradiction|intros [X|X]; contradiction].
Qed.

(** The simulators belong to the platform they simulate, and to no other. *)
Theorem os_simulators name :
  (In (txt "ios") (os_ids name) <-> In name [txt "ios"; txt "ios-simulator"])
  /\ (In (txt "tvos") (os_ids name) <-> In name [txt "tvos"; txt "tvos-simulator"])
  /\ (In (txt "watchos") (os_ids name) <-> In name [txt "watchos"; txt "watchos-simulator"]).
Proof.
  assert (MEM : forall (x : str) l, In x l <-> existsb (str_eqb x) l = true).
  { intros x l. rewrite existsb_exists. split; [intro H; exists x; split; [exact H|apply str_eqb_refl]|]. intros (y & I1 & E). apply str_eqb_eq in E. subst y. exact I1. }
  destruct (os_known name) as [I1|E].
  - assert (C : forall n, In n known_os ->
        existsb (str_eqb (txt "ios")) (os_ids n) = existsb (str_eqb n) [txt "ios"; txt "ios-simulator"]
        /\ existsb (str_eqb (txt "tvos")) (os_ids n) = existsb (str_eqb n) [txt "tvos"; txt "tvos-simulator"]
        /\ existsb (str_eqb (txt "watchos")) (os_ids n) = existsb (str_eqb n) [txt "watchos"; txt "watchos-simulator"]).
    { intros n I2. cbn [known_os List.map In] in I2. repeat (destruct I2 as [<-|I2]; [vm_compute; auto|]). destruct I2. }
    destruct (C name I1) as (C1 & C2 & C3). rewrite !MEM, C1, C2, C3. split; [reflexivity|]. split; reflexivity.
  - assert (O : os_ids name = [name]) by (unfold os_ids; rewrite (os_unknown name 4 E); reflexivity). rewrite O.
    assert (NK : ~ In name known_os).
    { intro I1. assert (C : forallb (fun n => match os_parents n with [] => false | _ => true end) known_os = true) by (vm_compute; reflexivity).
      rewrite forallb_forall in C. specialize (C name I1). rewrite E in C. discriminate. }
    assert (K : forall a b, forallb (fun n => existsb (str_eqb n) known_os) [a; b] = true -> (In a [name] <-> In name [a; b])).
    { intros a b F. cbn [forallb] in F. rewrite !andb_true_iff, <- !MEM in F. destruct F as (F1 & F2 & _).
      split; [intros [->|[]]; contradiction|intros [->|[->|[]]]; contradiction]. }
    split; [apply K; reflexivity|]. split; apply K; reflexivity.
Qed.

(** * Identifiers *)

Definition allowed (c : N) : Prop := 48 <= c <= 57 \/ 65 <= c <= 90 \/ 97 <= c <= 122 \/ c = 45 \/ c = 46.

Lemma ok_allowed c : ok_char c = true <-> allowed c.
Proof. unfold ok_char, allowed. rewrite !orb_true_iff, !andb_true_iff, !N.leb_le, !N.eqb_eq. tauto. Qed.

(** C112. In an identifier, the characters that are not allowed become dashes, the others
    stay. *)
Theorem identifier_exact s : Forall2 (fun c d => (allowed c /\ d = c) \/ (~ allowed c /\ d = 45)) s (identifier s).
Proof.
  induction s as [|c s IH]; [constructor|]. cbn [identifier List.map]. constructor; [|exact IH].
  destruct (ok_char c) eqn:E; [left; split; [apply ok_allowed; exact E|reflexivity]|right]. split; [|reflexivity]. rewrite <- ok_allowed, E. discriminate.
Qed.

Theorem identifier_idempotent s : Forall allowed (identifier s) /\ identifier (identifier s) = identifier s.
Proof.
  assert (K : Forall allowed (identifier s)).
  { induction s as [|c s IH]; [constructor|]. cbn [identifier List.map]. constructor; [|exact IH].
    destruct (ok_char c) eqn:E; [apply ok_allowed; exact E|unfold allowed; lia]. }
  split; [exact K|]. induction K as [|c l H K IH]; [reflexivity|]. cbn [identifier List.map]. apply ok_allowed in H. rewrite H. f_equal. exact IH.
Qed.

(** RFC 1034: labels between dots begin with a letter and end with a letter or digit. *)
Definition letter (c : N) : Prop := 65 <= c <= 90 \/ 97 <= c <= 122.
Definition label (l : str) : Prop :=
  (exists c r, l = c :: r /\ letter c) /\ (exists c r, l = r ++ [c] /\ (letter c \/ 48 <= c <= 57))
  /\ Forall (fun c => letter c \/ 48 <= c <= 57 \/ c = 45) l.
Inductive domain : str -> Prop :=
| one_label l : label l -> domain l
| more_labels l r : label l -> domain r -> domain (l ++ 46 :: r).

Lemma domain_starts s : domain s -> exists c r, s = c :: r /\ letter c.
Proof.
  intros [l H|l r H _]; destruct H as ((c & r' & -> & L) & _); [exists c, r'|exists c, (r' ++ 46 :: r)]; auto.
Qed.

Theorem rfc1034_refuted : exists s, s <> [] /\ ~ domain (identifier s).
Proof.
  exists (txt "7zip"). split; [discriminate|]. intro D. apply domain_starts in D. destruct D as (c & r & E & L). vm_compute in E. injection E as <- _.
  unfold letter in L. lia.
Qed.

(** A name of letters, digits, spaces and dots between letters is made compliant. *)
Theorem rfc1034_partial s first last mid :
  s = first :: mid ++ [last] -> letter first -> letter last \/ 48 <= last <= 57 -> ~ In 46 mid -> domain (identifier s).
Proof.
  intros -> F L NI. assert (EF : ok_char first = true) by (apply ok_allowed; unfold allowed, letter in *; lia).
  assert (EL : ok_char last = true) by (apply ok_allowed; unfold allowed, letter in *; lia).
  assert (E : identifier (first :: mid ++ [last]) = first :: identifier mid ++ [last]).
  { unfold identifier. cbn [List.map]. rewrite map_app. cbn [List.map]. rewrite EF, EL. reflexivity. }
  rewrite E. apply one_label. split; [|split].
  - exists first, (identifier mid ++ [last]). auto.
  - exists last, (first :: identifier mid). auto.
  - constructor; [left; exact F|]. apply Forall_app. split; [|constructor; [tauto|constructor]].
    clear - NI. induction mid as [|c mid IH]; [constructor|]. cbn [identifier List.map]. constructor; [|apply IH; intro X; apply NI; right; exact X].
    destruct (ok_char c) eqn:E; [|right; right; reflexivity]. apply ok_allowed in E. unfold allowed, letter in *.
    assert (c <> 46) by (intros ->; apply NI; left; reflexivity). lia.
Qed.

(** * MSVC *)

(** The architecture by the name of a directory. *)
Definition arch_of_directory (s : str) : str := if in_dec str_dec s [txt "x64"; txt "amd64"] then txt "x86_64" else s.

(** The compiler runs on this host, and compiles for this target. *)
Definition runs_on (host : str) (c : compiler) : Prop :=
  exists pre short, length pre = 4%nat /\ (exists s, c_host c = pre ++ s /\ small s short) /\ arch_of_directory short = host.
Definition compiles_for (target : str) (c : compiler) : Prop := arch_of_directory (c_target c) = target.
Definition native (c : compiler) : Prop := exists pre s, length pre = 4%nat /\ c_host c = pre ++ s /\ small s (c_target c).

Lemma msvc_canonical_spec s : msvc_canonical s = arch_of_directory s.
Proof.
  unfold msvc_canonical, arch_of_directory. destruct (in_dec str_dec s _) as [I1|NI].
  - destruct I1 as [<-|[<-|[]]]; reflexivity.
  - change [120; 54; 52] with (txt "x64"). change [97; 109; 100; 54; 52] with (txt "amd64").
    destruct (str_eqb s (txt "x64")) eqn:E1; [apply str_eqb_eq in E1; subst s; exfalso; apply NI; left; reflexivity|].
    destruct (str_eqb s (txt "amd64")) eqn:E2; [apply str_eqb_eq in E2; subst s; exfalso; apply NI; right; left; reflexivity|]. reflexivity.
Qed.

Lemma split_none c s : ~ In c s -> split_first c s = None.
Proof.
  induction s as [|x s IH]; intro NI; cbn [split_first]; [reflexivity|]. destruct (N.eqb_spec x c) as [->|NE]; [exfalso; apply NI; left; reflexivity|].
  rewrite IH; [reflexivity|]. intro X. apply NI. right. exact X.
Qed.
Lemma split_app c a b : ~ In c a -> split_first c (a ++ c :: b) = Some (a, c :: b).
Proof.
  induction a as [|x a IH]; intro NI; cbn [app split_first].
  - rewrite N.eqb_refl. reflexivity.
  - destruct (N.eqb_spec x c) as [->|NE]; [exfalso; apply NI; left; reflexivity|]. rewrite IH; [reflexivity|]. intro X. apply NI. right. exact X.
Qed.

Lemma native_lower c : (4 <= length (c_host c))%nat -> native c <-> lower (skipn 4 (c_host c)) = c_target c.
Proof.
  intro L. split.
  - intros (pre & s & LP & E & SM). apply small_is_lower in SM. rewrite E, skipn_app, skipn_all2, LP by lia. cbn [skipn Nat.sub app]. symmetry. exact SM.
  - intro E. exists (firstn 4 (c_host c)), (skipn 4 (c_host c)). split; [rewrite firstn_length; lia|]. split; [symmetry; apply firstn_skipn|].
    apply small_is_lower. symmetry. exact E.
Qed.

(** C110. A native compiler is given if it is one for the host, and the host is asked
    for. *)
Theorem native_compilers_exact host preferred l c :
  In c l -> native c -> (4 <= length (c_host c))%nat -> ~ In 95 (c_target c) ->
  (In c (installed host preferred l) <-> runs_on host c /\ compiles_for (if list_eq_dec N.eq_dec preferred [] then host else preferred) c).
Proof.
  intros I1 NC L4 NU. unfold installed. rewrite filter_In.
  assert (AR : compiler_arch c = c_target c).
  { unfold compiler_arch. rewrite (proj1 (native_lower c L4) NC), str_eqb_refl. reflexivity. }
  rewrite AR. unfold arch_pair. rewrite split_none by exact NU. cbn [fst snd]. rewrite negb_orb, !negb_involutive, andb_true_iff, !str_eqb_eq, msvc_canonical_spec.
  assert (RO : runs_on host c <-> arch_of_directory (c_target c) = host).
  { pose proof (proj1 (native_lower c L4) NC) as E. split.
    - intros (pre & short & LP & (s & E1 & SM) & <-). f_equal. apply small_is_lower in SM. subst short. rewrite <- E.
      rewrite E1, skipn_app, skipn_all2, LP by lia. reflexivity.
    - intro H. destruct NC as (pre & s & LP & E1 & SM). exists pre, (c_target c). split; [exact LP|]. split; [exists s; auto|exact H]. }
  rewrite RO. unfold compiles_for.
  assert (PR : match preferred with [] => host | _ :: _ => preferred end = (if list_eq_dec N.eq_dec preferred [] then host else preferred)).
  { destruct preferred as [|x r]; [reflexivity|]. destruct (list_eq_dec N.eq_dec (x :: r) []) as [X|X]; [discriminate|reflexivity]. }
  rewrite PR. split; [intros (_ & A1 & A2); auto|]. intros [A1 A2]. auto.
Qed.

(** A cross compiler is never given. *)
Theorem cross_compilers_refuted host preferred l c :
  ~ native c -> (4 <= length (c_host c))%nat -> ~ In 95 (skipn 4 (c_host c)) -> hd 0 (if list_eq_dec N.eq_dec preferred [] then host else preferred) <> 95 ->
  ~ In c (installed host preferred l).
Proof.
  intros NC L4 NU HP I1. unfold installed in I1. rewrite filter_In in I1. destruct I1 as [_ H].
  assert (AR : compiler_arch c = lower (skipn 4 (c_host c)) ++ 95 :: c_target c).
  { unfold compiler_arch. destruct (str_eqb (lower (skipn 4 (c_host c))) (c_target c)) eqn:E; [|reflexivity].
    apply str_eqb_eq in E. apply native_lower in E; [contradiction|exact L4]. }
  assert (NL : ~ In 95 (lower (skipn 4 (c_host c)))).
  { intro X. apply in_map_iff in X. destruct X as (y & E & I1). unfold lower_char in E. destruct (N.leb_spec 65 y) as [A1|A1]; destruct (N.leb_spec y 90) as [A2|A2]; cbn [andb] in E; try lia; subst y; contradiction. }
  rewrite AR in H. unfold arch_pair in H. rewrite split_app in H by exact NL. cbn [fst snd] in H.
  rewrite negb_orb, !negb_involutive, andb_true_iff, !str_eqb_eq in H. destruct H as [_ H].
  assert (M : msvc_canonical (95 :: c_target c) = 95 :: c_target c).
  { rewrite msvc_canonical_spec. unfold arch_of_directory. destruct (in_dec str_dec _ _) as [X|X]; [destruct X as [X|[X|[]]]; discriminate|reflexivity]. }
  rewrite M in H. destruct preferred as [|x r].
  - destruct (list_eq_dec N.eq_dec [] []) as [_|X]; [|congruence]. rewrite H in HP. apply HP. reflexivity.
  - destruct (list_eq_dec N.eq_dec (x :: r) []) as [X|_]; [discriminate|]. rewrite H in HP. apply HP. reflexivity.
Qed.

(** So a compiler for the host and target that are asked for may be missing. *)
Theorem compilers_found_refuted : exists host preferred l c,
  In c l /\ runs_on host c /\ compiles_for preferred c /\ ~ In c (installed host preferred l).
Proof.
  exists (txt "x86_64"), (txt "x86"), [Compiler (txt "Hostx64") (txt "x64"); Compiler (txt "Hostx64") (txt "x86")], (Compiler (txt "Hostx64") (txt "x86")).
  split; [right; left; reflexivity|]. split.
  - exists (txt "Host"), (txt "x64"). split; [reflexivity|]. split; [|reflexivity]. exists (txt "x64"). split; [reflexivity|]. apply small_is_lower. reflexivity.
  - split; [reflexivity|]. vm_compute. tauto.
Qed.

(** * Examples *)

Module Demo.

Example ex_arch : List.map canonical [txt "AMD64"; txt "i686"; txt "aarch64"; txt "sparc"; txt "Sparc"] = [txt "x86_64"; txt "x86"; txt "arm64"; txt "sparc"; txt "Sparc"].
Proof. reflexivity. Qed.

Example ex_small : small (txt "AMD64") (txt "amd64").
Proof. apply small_is_lower. reflexivity. Qed.

Example ex_target : target_name (txt "mipsel") (txt "little") [] (txt "linux") (txt "gnu") = txt "mipsel" /\ canonical (txt "mipsel") = txt "mips"
  /\ target_name (txt "x86") [] (txt "pc") (txt "nto") (txt "qnx7.0.0") = txt "i586".
Proof. repeat split. Qed.

Example ex_os : os_ids (txt "ios-simulator") = [txt "ios-simulator"; txt "ios"; txt "darwin"; txt "bsd"; txt "unix"] /\ os_ids (txt "windows") = [txt "windows"].
Proof. split; vm_compute; reflexivity. Qed.

Example ex_identifier : identifier (txt "My App_1.0") = txt "My-App-1.0".
Proof. reflexivity. Qed.

Example ex_msvc : native (Compiler (txt "HostX64") (txt "x64")) /\ installed (txt "x86_64") [] [Compiler (txt "HostX64") (txt "x64"); Compiler (txt "HostX86") (txt "x86")] = [Compiler (txt "HostX64") (txt "x64")].
Proof.
  split; [|vm_compute; reflexivity]. exists (txt "Host"), (txt "X64"). split; [reflexivity|]. split; [reflexivity|]. apply small_is_lower. reflexivity.
Qed.

Example ex_cross : ~ native (Compiler (txt "Hostx64") (txt "x86")).
Proof. rewrite native_lower by (vm_compute; lia). vm_compute. discriminate. Qed.

End Demo.

Print Assumptions canonical_exact.
Print Assumptions canonical_idempotent.
Print Assumptions canonical_apart.
Print Assumptions capitals_refuted.
Print Assumptions target_same_partial.
Print Assumptions target_same_refuted.
Print Assumptions target_endianness.
Print Assumptions target_names.
Print Assumptions os_identifiers_end.
Print Assumptions os_identifiers_closed.
Print Assumptions os_families.
Print Assumptions os_simulators.
Print Assumptions identifier_exact.
Print Assumptions identifier_idempotent.
Print Assumptions rfc1034_partial.
Print Assumptions rfc1034_refuted.
Print Assumptions native_compilers_exact.
Print Assumptions cross_compilers_refuted.
Print Assumptions compilers_found_refuted.
