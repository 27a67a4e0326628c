(** * Model of utils.py and exceptions.py *)

From Verif Require Export PyBase.
From Coq Require Import Ascii.
Open Scope string_scope.

(** ** utils.py *)

(** /repo/qctrlopencontrols/utils.py:84-115 [check_arguments].
    [None] for extras is modelled as the empty list of names. *)
Definition check_arguments (condition : bool) (description : string)
    (arguments extras : list string) : result unit :=
  if condition then Ok tt
  else Raise (ArgumentsValueError description arguments extras).

(** /repo/qctrlopencontrols/utils.py:118-126 [FileFormat] values *)
Definition FILE_FORMAT_QCTRL : string := "Q-CTRL expanded".
Definition file_formats : list string := [FILE_FORMAT_QCTRL].

(** /repo/qctrlopencontrols/utils.py:129-135 [FileType] values *)
Definition FILE_TYPE_JSON : string := "JSON".
Definition FILE_TYPE_CSV : string := "CSV".
Definition file_types : list string := [FILE_TYPE_JSON; FILE_TYPE_CSV].

(** /repo/qctrlopencontrols/utils.py:138-144 [Coordinate] values *)
Definition CARTESIAN : string := "cartesian".
Definition CYLINDRICAL : string := "cylindrical".
Definition coordinate_systems : list string := [CARTESIAN; CYLINDRICAL].

(** Python [s in list]. *)
Definition str_in (s : string) (l : list string) : bool :=
  existsb (String.eqb s) l.

(** Python ["sep".join(l)]. *)
Fixpoint str_join (sep : string) (l : list string) : string :=
  match l with
  | [] => ""
  | [x] => x
  | x :: l' => x ++ sep ++ str_join sep l'
  end.

(** What the caller passes as one entry of [attributes] (utils.py:65-66 tests
    [isinstance(attribute, str)]). *)
Inductive py_attr : Type :=
| AttrStr (s : string)
| AttrOther (type_name : string).

(** /repo/qctrlopencontrols/utils.py:23-81 [create_repr_from_attributes].
    The class instance is abstracted by its class name and by [reprs], the
    function giving [repr(getattr(instance, attribute))], which is [None] for
    an attribute that does not exist; [None] for the instance or the list
    stands for passing Python's [None]. *)
Definition attr_name (a : py_attr) : string :=
  match a with AttrStr s => s | AttrOther t => t end.
Definition attr_is_str (a : py_attr) : bool :=
  match a with AttrStr _ => true | AttrOther _ => false end.

(** utils.py:74-77: the generator passed to [",".join] *)
Fixpoint attribute_strings (reprs : string -> option string) (attrs : list py_attr)
    : result (list string) :=
  match attrs with
  | [] => Ok []
  | a :: l =>
      match reprs (attr_name a) with
      | None => Raise (AttributeError (attr_name a))
      | Some v =>
          let* rest := attribute_strings reprs l in
          Ok ((attr_name a ++ "=" ++ v) :: rest)
      end
  end.

Definition create_repr_from_attributes
    (class_instance : option (string * (string -> option string)))
    (attributes : option (list py_attr)) : result string :=
  match class_instance with
  | None => Raise (ArgumentsValueError "Class instance must be a valid object."
                     ["class_instance"] [])
  | Some (class_name, reprs) =>
      match attributes with
      | None => Raise (ArgumentsValueError "Attributes must be a list of string"
                         ["attributes"] [])
      | Some [] =>
          Ok ("No attributes provided for object of class " ++ class_name)
      | Some attrs =>
          match find (fun a => negb (attr_is_str a)) attrs with
          | Some bad =>
              Raise (ArgumentsValueError
                       ("Each attribute name must be a string. Found "
                          ++ attr_name bad ++ " type.")
                       ["attribute"; "type(attribute)"] [])
          | None =>
              let* strings := attribute_strings reprs attrs in
              Ok (class_name ++ "(" ++ str_join "," strings ++ ")")
          end
      end
  end.

(** ** exceptions.py *)

Definition newline : string := String (ascii_of_nat 10) EmptyString.

(** one [message += ...] loop, exceptions.py:51-52 and 54-55.  A dict is an
    association list of (key, repr(value)) in insertion order. *)
Definition append_items (message : string) (d : list (string * string)) : string :=
  fold_left (fun m kv => m ++ (newline ++ fst kv ++ "=" ++ snd kv)) d message.

(** /repo/qctrlopencontrols/exceptions.py:46-56 [ArgumentsValueError.__init__]:
    the value of [self.message]. *)
Definition error_message (description : string)
    (arguments : list (string * string))
    (extras : option (list (string * string))) : string :=
  let message := append_items description arguments in
  match extras with
  | None => message
  | Some e => append_items message e
  end.

(** An [ArgumentsValueError] instance with its values, exceptions.py:46-56:
    the attributes [description], [arguments], [extras] and [message]. *)
Record arguments_error : Type := MkArgumentsError {
  err_description : string;
  err_arguments : list (string * string);
  err_extras : option (list (string * string));
  err_message : string
}.
Definition new_arguments_error (description : string)
    (arguments : list (string * string)) (extras : option (list (string * string)))
    : arguments_error :=
  {| err_description := description; err_arguments := arguments; err_extras := extras;
     err_message := error_message description arguments extras |}.

(** utils.py:84-115 [check_arguments] again, with the values of the arguments;
    [None] is a normal return. *)
Definition check_arguments_values (condition : bool) (description : string)
    (arguments : list (string * string)) (extras : option (list (string * string)))
    : option arguments_error :=
  if condition then None else Some (new_arguments_error description arguments extras).
