(** * Exporting a sequence in floating point *)

From Verif Require Export M_FloatExport M_FloatConvert.
Import ListNotations.
Open Scope string_scope.
Open Scope list_scope.
Open Scope R_scope.

(** /repo/qctrlopencontrols/dynamic_decoupling_sequences/dynamic_decoupling_sequence.py:211-264
    [export_to_file] of a sequence, as in M_DDS.v *)
Definition fl_dds_export_to_file (rnd fsin fcos : R -> R) (d : fs) (s : dds)
    (filename file_format file_type coordinates : string)
    (maximum_rabi_rate_ maximum_detuning_rate : R) : fs * option exn :=
  match fl_convert rnd s maximum_rabi_rate_ maximum_detuning_rate 0 (seq_name s) with
  | Raise e => (d, Some e)
  | Ok c => fl_export_to_file rnd fsin fcos d c filename file_format file_type coordinates
  end.
