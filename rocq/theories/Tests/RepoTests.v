(** The repository's own unit tests and examples, run on the model by
    computation.  These are tests, not theorems about all inputs: they validate
    that the model computes what the authors' tests say the program computes.
    Where a test goes through [serde_json], the crate's part (text <-> calls) is
    written out by hand, since that crate is not modelled.  File-system and
    platform answers are those of a small fixed machine. *)
From Coq Require Import ZArith Bool String Floats.SpecFloat List.
Import ListNotations.
From Verif.Model Require Import Text Num Flt Value Merge Paths Finder World Layers Config Convert Serde Visitor Macro.
Open Scope Z_scope.

Definition done {A E} (d : A) (x : outcome A E) : A := match x with Done a => a | _ => d end.
Definition S_ (s : string) : value := from_str (lit s).
Definition I_ (z : Z) : value := from_int I32 z.
Definition F_ (s : string) : value :=
  VFloat (match parse_f64 (lit s) with Some f => f | None => S754_nan end).
Definition f_ (s : string) : f64 := match parse_f64 (lit s) with Some f => f | None => S754_nan end.
Definition M_ (l : list (string * value)) : value :=
  done VNone (value_map_macro (map (fun e => (lit (fst e), snd e)) l)).
Definition A_ (l : list value) : value := done VNone (value_vec_macro l).
Definition G (v : value) (k : string) : value := v_get v (lit k).

(** src/model/value.rs:127-157 *)
Example test_model_value_display :
  v_display VNone = lit "none" /\ v_display (VBool true) = lit "true" /\
  v_display (VInt 1) = lit "1" /\ v_display (VLong 1) = lit "1" /\
  v_display (VUInt 1) = lit "1" /\ v_display (VULong 1) = lit "1" /\
  v_display (F_ "1.0") = lit "1" /\ v_display (S_ "test") = lit "test" /\
  v_display (VArr [VInt 1; VInt 2]) = lit "[1, 2]" /\
  v_display (VMap [(lit "a", VInt 1)]) = lit "{a: 1}".
Proof. vm_compute. repeat split. Qed.

(** src/model/new.rs:54-62 *)
Example test_model_value_new_map :
  let v := fst (v_set (fst (v_set new_map (lit "a") (I_ 1))) (lit "b") (S_ "data")) in
  into_int I64 (G v "a") = Ok 1 /\ into_string (G v "b") = Ok (lit "data").
Proof. vm_compute. repeat split. Qed.

(** src/model/new.rs:65-73 *)
Definition arr4 : value := A_ [I_ 1; S_ "data"; F_ "3.14"; from_bool true].
Example test_model_value_new_array :
  v_len arr4 = 4%nat /\ into_int I64 (v_at arr4 0) = Ok 1 /\
  into_string (v_at arr4 1) = Ok (lit "data") /\ into_f64 (v_at arr4 2) = Ok (f_ "3.14") /\
  into_bool (v_at arr4 3) = Ok true.
Proof. vm_compute. repeat split. Qed.

(** src/model/new.rs:76-105 *)
Example test_model_value_map_macro :
  let four := [("a"%string, I_ 1); ("b"%string, S_ "data"); ("c"%string, F_ "3.14"); ("d"%string, from_bool true)] in
  let v := M_ (four ++ [("e"%string, M_ four); ("f"%string, arr4);
                        ("g"%string, from_option (from_int I64) None)]) in
  into_int I64 (G v "a") = Ok 1 /\ into_string (G v "b") = Ok (lit "data") /\
  into_f64 (G v "c") = Ok (f_ "3.14") /\ into_bool (G v "d") = Ok true /\
  into_int I64 (G (G v "e") "a") = Ok 1 /\ into_string (G (G v "e") "b") = Ok (lit "data") /\
  into_f64 (G (G v "e") "c") = Ok (f_ "3.14") /\ into_bool (G (G v "e") "d") = Ok true /\
  into_int I64 (v_at (G v "f") 0) = Ok 1 /\ into_string (v_at (G v "f") 1) = Ok (lit "data") /\
  into_f64 (v_at (G v "f") 2) = Ok (f_ "3.14") /\ into_bool (v_at (G v "f") 3) = Ok true /\
  is_none (G v "g") = true.
Proof. vm_compute. repeat split. Qed.

(** src/model/merge.rs:38-119 (both tests make the same assertions). *)
Definition person : value :=
  M_ [("name", S_ "David"); ("age", I_ 33);
      ("address", M_ [("street", S_ "123 Main St"); ("city", S_ "Anytown");
                      ("state", S_ "CA"); ("zip", I_ 12345)])]%string.
Definition person_local : value :=
  M_ [("address", M_ [("street", S_ "123 Main St"); ("city", S_ "Another Town");
                      ("state", S_ "CA"); ("zip", I_ 12345); ("number", I_ 123)]);
      ("education", M_ [("high_school", S_ "Anytown High School"); ("college", S_ "Anytown College")]);
      ("height", I_ 170)]%string.
Definition merged_ok (v : value) : Prop :=
  into_string (G v "name") = Ok (lit "David") /\ into_int I64 (G v "age") = Ok 33 /\
  into_int I64 (G v "height") = Ok 170 /\
  into_string (G (G v "address") "street") = Ok (lit "123 Main St") /\
  into_string (G (G v "address") "city") = Ok (lit "Another Town") /\
  into_string (G (G v "address") "state") = Ok (lit "CA") /\
  into_int I64 (G (G v "address") "zip") = Ok 12345 /\
  into_int I64 (G (G v "address") "number") = Ok 123 /\
  into_string (G (G v "education") "high_school") = Ok (lit "Anytown High School") /\
  into_string (G (G v "education") "college") = Ok (lit "Anytown College").
Example test_merge : merged_ok (v_merge person person_local).
Proof. vm_compute. repeat split. Qed.
Example test_clone_merge : merged_ok (fst (v_clone_merge person person_local)).
Proof. vm_compute. repeat split. Qed.

(** src/model/from.rs:136-161 *)
Example test_model_value_from :
  from_int I32 1 = VInt 1 /\ from_f64 (f_ "1.0") = F_ "1.0" /\ from_bool true = VBool true /\
  from_str (lit "test") = VStr (lit "test") /\
  from_vec (from_int I32) [1; 2; 3] = VArr [VInt 1; VInt 2; VInt 3] /\
  v_eqb (from_map (from_int I32) [(lit "test", 1)]) (VMap [(lit "test", VInt 1)]) = true.
Proof. vm_compute. repeat split. Qed.

(** src/model/into.rs:430-553 *)
Definition oob (from to : string) : model_error := EConversion (lit from) (lit to) out_of_bounds.
Example test_model_value_try_into_i64 :
  into_int I64 (VLong 100) = Ok 100 /\ into_int I64 (F_ "1.0") = Ok 1 /\
  into_int I64 (from_bool true) = Ok 1 /\ into_int I64 (S_ "1") = Ok 1 /\
  into_int I64 (VLong (imax I128)) = Err (oob "i128" "i64").
Proof. vm_compute. repeat split. Qed.
Example test_model_value_try_into_i128 :
  into_int I128 (VLong 100) = Ok 100 /\ into_int I128 (F_ "1.0") = Ok 1 /\
  into_int I128 (from_bool true) = Ok 1 /\ into_int I128 (S_ "1") = Ok 1 /\
  into_int I128 (VLong (imax I128)) = Ok (imax I128) /\
  into_int I128 (VULong (imax U128)) = Err (oob "u128" "i128").
Proof. vm_compute. repeat split. Qed.
Example test_model_value_try_into_u64 :
  into_int U64 (VUInt 100) = Ok 100 /\ into_int U64 (F_ "1.0") = Ok 1 /\
  into_int U64 (from_bool true) = Ok 1 /\ into_int U64 (S_ "1") = Ok 1 /\
  into_int U64 (VULong (imax U128)) = Err (oob "u128" "u64") /\
  into_int U64 (VLong (-1)) = Err (oob "i128" "u64").
Proof. vm_compute. repeat split. Qed.
Example test_model_value_try_into_u128 :
  into_int U128 (VUInt 100) = Ok 100 /\ into_int U128 (F_ "1.0") = Ok 1 /\
  into_int U128 (from_bool true) = Ok 1 /\ into_int U128 (S_ "1") = Ok 1 /\
  into_int U128 (VULong (imax U128)) = Ok (imax U128) /\
  into_int U128 (VLong (-1)) = Err (oob "i128" "u128").
Proof. vm_compute. repeat split. Qed.
Example test_model_value_try_into_f64 :
  into_f64 (F_ "100.0") = Ok (f_ "100") /\ into_f64 (F_ "1.0") = Ok (f_ "1") /\
  into_f64 (from_bool true) = Ok (f_ "1") /\ into_f64 (S_ "1") = Ok (f_ "1").
Proof. vm_compute. repeat split. Qed.
Example test_model_value_try_into_string :
  into_string (S_ "test") = Ok (lit "test") /\ into_string (I_ 1) = Ok (lit "1") /\
  into_string (F_ "1.0") = Ok (lit "1") /\ into_string (from_bool true) = Ok (lit "true").
Proof. vm_compute. repeat split. Qed.

(** src/model/iter.rs:34-42 *)
Example test_value_iter :
  let v := A_ [I_ 1; I_ 2; I_ 3] in
  let '(a, i1) := iter_next (v_iter v) in
  let '(b, i2) := iter_next i1 in
  let '(c, _) := iter_next i2 in
  a = Some (VInt 1) /\ b = Some (VInt 2) /\ c = Some (VInt 3).
Proof. vm_compute. repeat split. Qed.

(** src/model/visitor.rs:163-228: what serde_json presents for each text
    (null: visit_unit; a non-negative number below 2^64: visit_u64; otherwise
    visit_f64). *)
Definition visited (e : event) : value := match visit e with Ok v => v | Err _ => VNone end.
Example test_model_value_deserialize :
  visit EvUnit = Ok VNone /\ visit (EvBool true) = Ok (VBool true) /\
  into_int I64 (visited (EvInt U64 42)) = Ok 42 /\
  into_int U128 (visited (EvInt U64 9223372036854775808)) = Ok 9223372036854775808 /\
  into_int U64 (visited (EvInt U64 556)) = Ok 556 /\
  into_int U128 (visited (EvF64 (f_ "18446744073709551616"))) = Ok 18446744073709551616 /\
  visit (EvF64 (f_ "42.0")) = Ok (F_ "42.0") /\
  visit (EvStr (lit "Hello, World!")) = Ok (VStr (lit "Hello, World!")) /\
  visit (EvSeq [EvInt U64 1; EvInt U64 2; EvInt U64 3]) = Ok (VArr [VUInt 1; VUInt 2; VUInt 3]) /\
  v_eqb (visited (EvMap [(EvStr (lit "a"), EvInt U64 1); (EvStr (lit "b"), EvInt U64 2); (EvStr (lit "c"), EvInt U64 3)]))
        (VMap [(lit "c", VUInt 3); (lit "a", VUInt 1); (lit "b", VUInt 2)]) = true.
Proof. vm_compute. repeat split. Qed.

(** src/model/ser.rs:446-520: the calls that serde_json turns into text. *)
Example test_model_value_serialize :
  value_calls VNone = DNone /\ value_calls (VBool true) = DBool true /\
  value_calls (VInt 42) = DInt I64 42 /\ value_calls (VLong 42) = DInt I128 42 /\
  value_calls (VUInt 42) = DInt U64 42 /\ value_calls (VULong 42) = DInt U128 42 /\
  value_calls (F_ "42.0") = DF64 (f_ "42") /\ value_calls (S_ "42") = DStr (lit "42") /\
  value_calls (VArr [VInt 42; VInt 43]) = DSeq [DInt I64 42; DInt I64 43] /\
  value_calls (VMap [(lit "a", VInt 42)]) = DMap [(DStr (lit "a"), DInt I64 42)].
Proof. vm_compute. repeat split. Qed.

(** src/model/ser.rs:522-597 *)
Definition test_struct (name : string) (age : Z) (childs : list data) (fam : list (string * data)) : data :=
  DStruct [(lit "name", DStr (lit name)); (lit "age", DInt I64 age); (lit "childs", DSeq childs);
           (lit "fam", DMap (map (fun e => (DStr (lit (fst e)), snd e)) fam));
           (lit "data", DSome (DInt U64 10))].
Example test_model_value_serializer :
  let user := test_struct "John" 42 [test_struct "Jane" 12 [] []; test_struct "Jack" 10 [] []]
                [("wife", test_struct "Jane" 45 [] []); ("cousin", test_struct "Jack" 51 [] [])]%string in
  let v := done VNone (ser user) in
  into_string (G v "name") = Ok (lit "John") /\ into_int I64 (G v "age") = Ok 42 /\
  into_string (G (v_at (G v "childs") 0) "name") = Ok (lit "Jane") /\
  into_int I64 (G (v_at (G v "childs") 0) "age") = Ok 12 /\
  into_string (G (v_at (G v "childs") 1) "name") = Ok (lit "Jack") /\
  into_int I64 (G (v_at (G v "childs") 1) "age") = Ok 10 /\
  into_string (G (G (G v "fam") "wife") "name") = Ok (lit "Jane") /\
  into_int I64 (G (G (G v "fam") "wife") "age") = Ok 45 /\
  into_string (G (G (G v "fam") "cousin") "name") = Ok (lit "Jack") /\
  into_int I64 (G (G (G v "fam") "cousin") "age") = Ok 51.
Proof. vm_compute. repeat split. Qed.

(** src/model/de.rs:344-377 *)
Example test_deserialize :
  de (TStruct [(lit "name", TString); (lit "age", TInt U8);
               (lit "address", TStruct [(lit "street", TString); (lit "city", TString)])])
     (M_ [("name", S_ "John"); ("age", I_ 42);
          ("address", M_ [("street", S_ "10 Downing Street"); ("city", S_ "London")])]%string)
  = Done (DStruct [(lit "name", DStr (lit "John")); (lit "age", DInt U8 42);
                   (lit "address", DStruct [(lit "street", DStr (lit "10 Downing Street"));
                                            (lit "city", DStr (lit "London"))])]).
Proof. vm_compute. reflexivity. Qed.

(** ** A machine: home /h, config /h/.config, working directory /w; every path
    readable and writable. *)
Definition env_of (l : list (string * string)) : list (list byte * list byte) :=
  map (fun e => (utf8_encode (lit (fst e)), utf8_encode (lit (snd e)))) l.
Definition pf0 : platform :=
  {| pf_base := Some {| bd_home := lit "/h"; bd_config := lit "/h/.config"; bd_pref := lit "/h/.config" |};
     pf_cwd := Some (lit "/w") |}.
Definition machine (files : list (path * list byte)) (env : list (string * string)) : world :=
  {| w_files := fun p => match mget p files with Some bs => Some (NFile bs) | None => None end;
     w_target := fun p => p; w_can_read := fun _ => true; w_can_open := fun _ => true; w_room := fun _ => None;
     w_env := env_of env; w_platform := pf0 |}.
Definition nothing_exists : fs_oracle := fun _ _ => false.

(** src/config_layer/layer_env.rs:101-116 *)
Example test_load_environment :
  let w := machine [] [("TEST_value1", "1"); ("TEST_value2", "2.5"); ("TEST_value3", "true"); ("TEST_value4", "data")]%string in
  match layer_read w (env_layer_new (lit "TEST_")) with
  | Ok v => into_int I64 (G v "value1") = Ok 1 /\ into_f64 (G v "value2") = Ok (f_ "2.5") /\
            into_bool (G v "value3") = Ok true /\ into_string (G v "value4") = Ok (lit "data")
  | Err _ => False
  end.
Proof. vm_compute. repeat split. Qed.

(** src/file_finder/alg_find_first.rs:47-65, alg_find_last.rs:49-67,
    alg_find_all.rs:42-65, alg_find_all_or_first.rs:49-67 *)
Definition finder2 : finder :=
  finder_with_extension (finder_with_toml (finder_with_user_home pf0
    (finder_with_user_config pf0 (finder_new (lit "test_file"))))) (lit "txt").
Definition finder3 : finder :=
  finder_with_toml (finder_with_user_config pf0 (finder_with_user_home pf0 (finder_new (lit "test_file")))).
Definition path_of {E} (x : outcome find_result E) : option path :=
  match x with Done r => Some (fr_path r) | _ => None end.
Definition paths_of {E} (x : outcome (list find_result) E) : option (list path) :=
  match x with Done l => Some (map fr_path l) | _ => None end.
Example test_finders :
  path_of (find_first nothing_exists finder2 true) = Some (lit "/h/.config/test_file.toml") /\
  path_of (find_last nothing_exists finder2 true) = Some (lit "/h/test_file.txt") /\
  paths_of (find_all nothing_exists true finder3 true)
    = Some [lit "/h/test_file.toml"; lit "/h/.config/test_file.toml"] /\
  paths_of (find_all_or_first nothing_exists true finder3) = Some [lit "/h/test_file.toml"].
Proof. vm_compute. repeat split. Qed.

(** src/config_macro.rs:60-121.  The codec here refuses everything it is asked
    to read and writes a fixed text. *)
Definition tc0 : codec :=
  {| toml_from_str := fun s => if str_eqb s (lit "data = 10") then Ok (M_ [("data"%string, I_ 10)]) else Err (lit "?");
     toml_to_string := fun _ => Ok (lit "data = 10") |}.
Definition run_macro (ms : macro_spec) (w : world) : option (result value bak_error * world) :=
  match create_config tc0 ms w with
  | Done (c, w') => Some (build_value w' c false, w')
  | _ => None
  end.
Example creates_default_value :
  match run_macro {| ms_file_name := lit ".app-config";
                     ms_default := [(lit "path", S_ "/default/path"); (lit "delay", I_ 1000);
                                    (lit "log", M_ [("level", S_ "info"); ("file", S_ "default.log")]%string)];
                     ms_env := None; ms_layers := [] |} (machine [] []) with
  | Some (Ok v, _) =>
    into_string (G v "path") = Ok (lit "/default/path") /\ into_int I64 (G v "delay") = Ok 1000 /\
    into_string (G (G v "log") "level") = Ok (lit "info") /\
    into_string (G (G v "log") "file") = Ok (lit "default.log")
  | _ => False
  end.
Proof. vm_compute. repeat split. Qed.
Example add_environment :
  match run_macro {| ms_file_name := lit ".app-config"; ms_default := [(lit "data", I_ 10)];
                     ms_env := Some (lit "MY_APP_"); ms_layers := [] |}
                  (machine [] [("MY_APP_data", "11")]%string) with
  | Some (Ok v, _) => into_int I64 (G v "data") = Ok 11
  | _ => False
  end.
Proof. vm_compute. repeat split. Qed.
Example initiliaze_file :
  match run_macro {| ms_file_name := lit ".app-config"; ms_default := [(lit "data", I_ 10)];
                     ms_env := Some (lit "MY_APP_");
                     ms_layers := [{| ls_name := lit "global"; ls_dirs := [DirPath (lit "./target")];
                                      ls_init := Some true |}] |}
                  (machine [] [("MY_APP_data", "11")]%string) with
  | Some (Ok v, w) => fs_exists w (lit "./target/.app-config.toml") = true
  | _ => False
  end.
Proof. vm_compute. reflexivity. Qed.

(** examples/use-value.rs *)
Definition uv : value :=
  M_ [("prop1", S_ "value1"); ("prop2", I_ 10); ("prop3", A_ [I_ 1; I_ 2; I_ 3]);
      ("prop4", M_ [("prop5", S_ "value2")])]%string.
Example example_use_value :
  into_string (G uv "prop1") = Ok (lit "value1") /\ into_f64 (G uv "prop2") = Ok (f_ "10") /\
  fold_left (fun s i => s + match into_int I32 (v_at (G uv "prop3") i) with Ok z => z | Err _ => 0 end)
            [0; 1; 2]%nat 0 = 6 /\
  into_string (G (G uv "prop4") "prop5") = Ok (lit "value2") /\
  (forall s, into_string (G uv "prop6") <> Ok s).
Proof. vm_compute. repeat split. discriminate. Qed.

(** examples/deserialize.rs: a recursive struct, unfolded to the depth of the
    datum ([ty] has no recursive types). *)
Definition person_ty (children : ty) : ty :=
  TStruct [(lit "name", TString); (lit "age", TInt I32); (lit "children", TSeq children)].
Example example_deserialize :
  de (person_ty (person_ty (person_ty TUnit)))
     (M_ [("name", S_ "John"); ("age", I_ 30);
          ("children", A_ [M_ [("name", S_ "Alice"); ("age", I_ 5); ("children", A_ [])];
                           M_ [("name", S_ "Bob"); ("age", I_ 10); ("children", A_ [])]])]%string)
  = Done (DStruct [(lit "name", DStr (lit "John")); (lit "age", DInt I32 30);
      (lit "children", DSeq
        [DStruct [(lit "name", DStr (lit "Alice")); (lit "age", DInt I32 5); (lit "children", DSeq [])];
         DStruct [(lit "name", DStr (lit "Bob")); (lit "age", DInt I32 10); (lit "children", DSeq [])]])]).
Proof. vm_compute. reflexivity. Qed.

(** README.MD, "Value" *)
Example readme_values :
  let v := M_ [("key1", S_ "value1"); ("key2", M_ [("sub_key1", S_ "sub_value1"); ("sub_key2", I_ 42)])]%string in
  let a := A_ [S_ "item1"; I_ 42; from_bool true] in
  into_string (G v "key1") = Ok (lit "value1") /\
  into_string (G (G v "key2") "sub_key1") = Ok (lit "sub_value1") /\
  into_int I64 (G (G v "key2") "sub_key2") = Ok 42 /\
  is_none (G (G v "missing_key") "other_key") = true /\
  into_string (v_at a 0) = Ok (lit "item1") /\ into_int I64 (v_at a 1) = Ok 42 /\
  into_bool (v_at a 2) = Ok true /\ is_none (v_at a 3) = true.
Proof. vm_compute. repeat split. Qed.

(** README.MD, "FileFinder": the search order and the fallbacks, for the toml
    extension. *)
Definition readme_finder : finder :=
  finder_with_path pf0 (finder_with_user_home pf0 (finder_with_working_directory pf0
    (finder_with_supported (finder_new (lit ".my-config"))))) (lit "/path/to/custom/folder").
Example readme_finders :
  paths_of (find_all nothing_exists true readme_finder true)
    = Some [lit "/w/.my-config.toml"; lit "/h/.my-config.toml"; lit "/path/to/custom/folder/.my-config.toml"] /\
  path_of (find_first nothing_exists readme_finder true) = Some (lit "/w/.my-config.toml") /\
  path_of (find_last nothing_exists readme_finder true) = Some (lit "/path/to/custom/folder/.my-config.toml") /\
  find_first nothing_exists readme_finder false = Fail NoFilesFound /\
  find_last nothing_exists readme_finder false = Fail NoFilesFound /\
  find_all nothing_exists true readme_finder false = Fail NoFilesFound.
Proof. vm_compute. repeat split. Qed.
