(** Model of the command line tools: tpl/cmd/tplconv/tplconv.go and tpl/cmd/tplgen/main.go.
    Not modelled: flag parsing (the flags are parameters), file modes, the text of usage messages. *)
From Coq Require Import String.
From Verif Require Import Base Token.
Local Open Scope list_scope.
Local Open Scope Z_scope.

Definition path : Type := bytes.
(** The part of the operating system the tools see: what each file holds ([None]: cannot be read), standard output, standard error. *)
Record world : Type := mkW { files : path -> option bytes; stdout : bytes; stderr : list bytes }.
Definition set_file (w : world) (p : path) (c : option bytes) : world :=
  mkW (fun q => if beq q p then c else files w q) (stdout w) (stderr w).
Definition set_stdout (w : world) (c : bytes) : world := mkW (files w) c (stderr w).
(** fmt.Fprintln(os.Stderr, e) *)
Definition say (w : world) (e : bytes) : world := mkW (files w) (stdout w) (stderr w ++ [e]).

(** What a Go function that may panic returns. *)
Inductive res (A : Type) : Type := Ok (a : A) | Err (e : bytes) | Crash.
Arguments Ok {A} a. Arguments Err {A} e. Arguments Crash {A}.

(** filepath.Ext (path/filepath, unix): the text from the last '.' of the last element of the path, empty if it has none *)
Fixpoint ext_rev (r : bytes) (acc : bytes) : bytes :=
  match r with
  | [] => []
  | c :: r' => if c =? 47 then [] else if c =? 46 then c :: acc else ext_rev r' (c :: acc)
  end.
Definition Ext (p : path) : bytes := ext_rev (rev p) [].

Definition t_format : bytes := Eval vm_compute in s2b "unknown file format: ".
Definition t_output : bytes := Eval vm_compute in s2b "unknown output format: ".
Definition t_tpl : bytes := Eval vm_compute in s2b ".tpl".
Definition t_json : bytes := Eval vm_compute in s2b "json".
Definition t_htm : bytes := Eval vm_compute in s2b ".htm".
Definition t_html : bytes := Eval vm_compute in s2b ".html".
Definition t_input : bytes := Eval vm_compute in s2b "input".
Definition t_outdir : bytes := Eval vm_compute in s2b "output".

Section Tplconv.
Context {E D T : Type}.
(** extractor.New, Engine.SafeParse (extractor.go:59-188, modelled in Extractor.v), json.MarshalIndent, template parsing, and
    template execution: the pieces it writes, then its error. *)
Variable New : bytes -> res E.
Variable SafeParse : E -> bytes -> path -> res D.
Variable marshal : D -> bytes + bytes.
Variable parse_template : path -> bytes -> T + bytes.
Variable execute : T -> D -> list bytes * option bytes.
(** filepath.Join; which files can be created; writing: what a file that holds [c] holds after [d] was written to it, and the error;
    the error of reading a file that cannot be read *)
Variable join : list path -> path.
Variable creatable : path -> option bytes.
Variable write : bytes -> bytes -> bytes * option bytes.
Variable bad_tpl : path -> bytes -> bytes.
Variable no_file : path -> bytes.
(** The flags -o, -ext (tplconv.go:21-24) and $HOME/.tplconv *)
Variables outputFormat outputExt root : bytes.

(** Where output goes: os.Stdout or the created file. *)
Definition held (w : world) (dest : option path) : bytes :=
  match dest with None => stdout w | Some p => match files w p with Some c => c | None => [] end end.
Definition put (w : world) (dest : option path) (c : bytes) : world :=
  match dest with None => set_stdout w c | Some p => set_file w p (Some c) end.
Definition write_to (w : world) (dest : option path) (d : bytes) : world * option bytes :=
  let (c, e) := write (held w dest) d in (put w dest c, e).
(** template.Execute: stops at the first write that fails *)
Fixpoint write_all (w : world) (dest : option path) (ds : list bytes) (e : option bytes) : world * option bytes :=
  match ds with
  | [] => (w, e)
  | d :: ds' => match write_to w dest d with (w', Some x) => (w', Some x) | (w', None) => write_all w' dest ds' e end
  end.

(** tplconv.go:114-121 printJson *)
Definition printJson (d : D) : bytes := match marshal d with inl b => b | inr e => e end.
(** tplconv.go:138-141 outTemplates, 143-145 outInternals: the keys *)
Definition is_template (e : bytes) : bool := beq e t_htm || beq e t_html.
Definition is_internal (f : bytes) : bool := beq f t_json.

(** tplconv.go:88-109: the format part of processFile *)
Definition render (w : world) (dest : option path) (doc : D) : world * res unit :=
  let outext := Ext outputFormat in
  match outext with
  | [] =>
      if is_internal outputFormat then (fst (write_to w dest (printJson doc)), Ok tt) (* the error of io.WriteString is dropped *)
      else (w, Err (t_output ++ outputFormat))
  | _ :: _ =>
      if is_template outext then
        let p := join [root; t_outdir; outputFormat] in
        match files w p with
        | None => (w, Err (no_file p))
        | Some src =>
            match parse_template p src with
            | inr e => (w, Err e)
            | inl t => let (ds, e) := execute t doc in
                       match write_all w dest ds e with (w', None) => (w', Ok tt) | (w', Some x) => (w', Err x) end
            end
        end
      else (w, Err (t_output ++ outext))
  end.
(** tplconv.go:77-86: the file the output goes to *)
Definition outFile (inputFile : path) : path := inputFile ++ [46] ++ outputExt.
Definition open_output (w : world) (inputFile : path) : world * (option path + bytes) :=
  match outputExt with
  | [] => (w, inl None)
  | _ :: _ => match creatable (outFile inputFile) with
              | Some e => (w, inr e)
              | None => (set_file w (outFile inputFile) (Some []), inl (Some (outFile inputFile)))
              end
  end.
(** tplconv.go:48-110 processFile *)
Definition processFile (w : world) (inputFile : path) : world * res unit :=
  match files w inputFile with
  | None => (w, Err (no_file inputFile))
  | Some input =>
      match Ext inputFile with
      | [] => (w, Err (t_format ++ inputFile))
      | dot :: ext =>
          match files w (join [root; t_input; ext ++ t_tpl]) with
          | None => (w, Err (t_format ++ dot :: ext))
          | Some tpl =>
              match New tpl with
              | Crash => (w, Crash)
              | Err e => (w, Err (bad_tpl (join [root; t_input; ext ++ t_tpl]) e))
              | Ok eng =>
                  match SafeParse eng input inputFile with
                  | Crash => (w, Crash)
                  | Err e => (w, Err e)
                  | Ok doc =>
                      match open_output w inputFile with
                      | (w', inr e) => (w', Err e)
                      | (w', inl dest) => render w' dest doc
                      end
                  end
              end
          end
      end
  end.
(** tplconv.go:28-46 main: the exit status (2 also for a panic, which the Go runtime reports itself) *)
Variable help : bytes.
Fixpoint process_all (w : world) (args : list path) : world * Z :=
  match args with
  | [] => (w, 0)
  | a :: rest =>
      match processFile w a with
      | (w', Ok _) => process_all w' rest
      | (w', Err e) => (say w' e, 2)
      | (w', Crash) => (w', 2)
      end
  end.
Definition tplconv (w : world) (args : list path) : world * Z :=
  match args with [] => (say w help, 1) | _ => process_all w args end.
End Tplconv.

(** ** tplgen.  Go syntax trees, as far as the tool looks at them (go/ast). *)
Inductive expr : Type := EIdent (name : bytes) | EBasicLit (text : bytes) | EOther.
Inductive spec : Type := ValueSpec (names : list bytes) (values : list expr) | OtherSpec.
(** a DeclStmt holds a GenDecl (go/ast: "GenDecl with CONST, TYPE, or VAR token"); [FuncDecl None]: a function without body *)
Inductive stmt : Type := DeclStmt (specs : list spec) | AssignStmt (lhs rhs : list expr) | OtherStmt.
Inductive decl : Type := GenDecl (specs : list spec) | FuncDecl (body : option (list stmt)) | BadDecl.

Section Tplgen.
Variable grammarName : bytes.

(** main.go:30-35: the index of the last name that is the grammar's *)
Fixpoint last_name (names : list bytes) (i : nat) (index : option nat) : option nat :=
  match names with [] => index | n :: r => last_name r (S i) (if beq n grammarName then Some i else index) end.
(** main.go:36-41, 57-62: Values[index] as a literal; an index out of range panics. [Ok []]: go on searching *)
Definition literal_at (values : list expr) (index : nat) : res bytes :=
  match nth_error values index with None => Crash | Some (EBasicLit t) => Ok t | Some _ => Ok [] end.
(** main.go:26-45 findInGenDecl *)
Fixpoint findInGenDecl (specs : list spec) : res bytes :=
  match specs with
  | [] => Ok []
  | ValueSpec names values :: r =>
      match last_name names 0 None with
      | None => findInGenDecl r
      | Some i => match nth_error values i with
                  | None => Crash
                  | Some (EBasicLit t) => Ok t
                  | Some _ => findInGenDecl r
                  end
      end
  | OtherSpec :: r => findInGenDecl r
  end.
(** main.go:48-57: the index of the first identifier on the left that is the grammar's *)
Fixpoint first_ident (lhs : list expr) (i : nat) : option nat :=
  match lhs with
  | [] => None
  | EIdent n :: r => if beq n grammarName then Some i else first_ident r (S i)
  | _ :: r => first_ident r (S i)
  end.
(** main.go:47-65 findInAssignment *)
Definition findInAssignment (lhs rhs : list expr) : res bytes :=
  match first_ident lhs 0 with None => Ok [] | Some i => literal_at rhs i end.
(** main.go:77-92: the loop over the statements of a function *)
Fixpoint findInBody (l : list stmt) : res bytes :=
  match l with
  | [] => Ok []
  | s :: r =>
      match (match s with DeclStmt specs => findInGenDecl specs | AssignStmt lhs rhs => findInAssignment lhs rhs | OtherStmt => Ok [] end) with
      | Ok [] => findInBody r
      | x => x
      end
  end.
(** main.go:67-95 findInDecl *)
Definition findInDecl (d : decl) : res bytes :=
  match d with
  | GenDecl specs => findInGenDecl specs
  | FuncDecl (Some body) => findInBody body
  | FuncDecl None => Crash
  | BadDecl => Ok []
  end.
(** main.go:111-120: the files in the order in which Go iterates over the two maps, each with its package name *)
Fixpoint findInFile (ds : list decl) : res bytes :=
  match ds with [] => Ok [] | d :: r => match findInDecl d with Ok [] => findInFile r | x => x end end.
Fixpoint search (fs : list (bytes * list decl)) : res (bytes * bytes) :=
  match fs with
  | [] => Ok ([], [])
  | (pkg, ds) :: r => match findInFile ds with Ok [] => search r | Ok g => Ok (pkg, g) | Err e => Err e | Crash => Crash end
  end.
(** main.go:126 grammarContent[1 : len(grammarContent)-1] *)
Definition inner (t : bytes) : res bytes := if (length t <? 2)%nat then Crash else Ok (removelast (tl t)).

(** main.go:97-143 main; [gen]: generator.GenStaticCode (Gen.v); [parsed]: parser.ParseDir(".") in the world without the output file;
    [removable], [creatable], [template]: os.Remove, os.OpenFile and template.ParseFiles; [exec]: what t.Execute writes (its error is dropped). *)
Variable gen : bytes -> res bytes.
Variable parsed : world -> res (list (bytes * list decl)).
Variable removable : path -> bool.
Variable creatable : path -> option bytes.
Variable template : res unit.
Variable exec : bytes -> bytes -> bytes.
Definition t_notfound : bytes := Eval vm_compute in s2b " not found.".
Definition fail_with (w : world) (e : bytes) : world * Z := (say w e, 1).
(** O_RDWR|O_CREATE: an existing file keeps its contents, which are then overwritten from the start *)
Definition overwrite (old data : bytes) : bytes := data ++ skipn (length data) old.
Definition tplgen (w : world) (output : path) : world * Z :=
  let w1 := if removable output then set_file w output None else w in
  match parsed w1 with
  | Err e => fail_with w1 e
  | Crash => (w1, 2)
  | Ok fs =>
      match search fs with
      | Crash => (w1, 2)
      | Err e => fail_with w1 e
      | Ok (pkg, []) => fail_with w1 (grammarName ++ t_notfound)
      | Ok (pkg, g) =>
          match inner g with
          | Crash => (w1, 2)
          | Err e => fail_with w1 e
          | Ok src =>
              match gen src with
              | Crash => (w1, 2)
              | Err e => fail_with w1 e
              | Ok code =>
                  match creatable output with
                  | Some e => fail_with w1 e
                  | None =>
                      let old := match files w1 output with Some c => c | None => [] end in
                      let w2 := set_file w1 output (Some old) in
                      match template with
                      | Crash => (w2, 2)
                      | Err e => fail_with w2 e
                      | Ok _ => (set_file w2 output (Some (overwrite old (exec pkg code))), 0)
                      end
                  end
              end
          end
      end
  end.
End Tplgen.
