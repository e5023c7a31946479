-Q theories Verif

theories/Base.v
theories/Bytecode_Model.v
theories/Bytecode_Spec.v
theories/Bytecode_Proofs.v
theories/Bytecode_Props.v
theories/Mem_Model.v
theories/Mem_Spec.v
theories/Mem_Proofs.v
theories/Mem_Props.v
theories/Num_Model.v
theories/Num_Spec.v
theories/Num_Proofs.v
theories/Num_Props.v
theories/Vm_Model.v
theories/Vm_Spec.v
theories/Vm_Proofs.v
theories/Vm_Props.v
theories/Ids_Model.v
theories/Ids_Spec.v
theories/Ids_Proofs.v
theories/Ids_Props.v
theories/Ast_Model.v
theories/Syms_Model.v
theories/Syms_Spec.v
theories/Syms_Proofs.v
theories/Syms_Props.v
theories/Text_Model.v
theories/Text_Proofs.v
theories/Linebuf_Model.v
theories/Linebuf_Spec.v
theories/Linebuf_Props.v
theories/Strings_Model.v
theories/Strings_Spec.v
theories/Strings_Proofs.v
theories/Strings_Props.v
theories/Format_Model.v
theories/Format_Spec.v
theories/Format_Proofs.v
theories/Format_Props.v
theories/Colors_Model.v
theories/Colors_Spec.v
theories/Colors_Props.v
theories/Bounds_Model.v
theories/Bounds_Props.v
theories/Data_Model.v
theories/Data_Spec.v
theories/Data_Props.v
theories/Codegen_Model.v
theories/Exprs_Model.v
theories/Top_Model.v
theories/Codegen_Proofs.v
theories/Exprs_Proofs.v
theories/Top_Proofs.v
theories/Incr_Spec.v
theories/Incr_Proofs.v
theories/Incr_Props.v
theories/Eval_Spec.v
theories/Eval_Proofs.v
theories/Eval_Props.v
theories/Layout_Proofs.v
theories/Exec_Spec.v
theories/Exec_Proofs.v
theories/Flow_Proofs.v
theories/Select_Proofs.v
theories/Stmt_Proofs.v
theories/Range_Proofs.v
theories/Program_Proofs.v
theories/Exec_Props.v
theories/Storage_Model.v
theories/Storage_Spec.v
theories/Storage_Proofs.v
theories/Storage_Props.v
theories/Lex_Model.v
theories/Lex_Spec.v
theories/Lex_Proofs.v
theories/Lex_Props.v
theories/Parse_Model.v
theories/Parse_Spec.v
theories/Parse_Proofs.v
theories/Parse_Props.v
theories/Readline_Model.v
theories/Readline_Spec.v
theories/Readline_Proofs.v
theories/Readline_Props.v
theories/Draw_Model.v
theories/Draw_Spec.v
theories/Draw_Proofs.v
theories/Draw_Props.v
theories/Lcd_Model.v
theories/Lcd_Spec.v
theories/Lcd_Proofs.v
theories/Lcd_Props.v
theories/Gfx_Model.v
theories/Gfx_Spec.v
theories/Gfx_Proofs.v
theories/Gfx_Props.v
theories/Editor_Model.v
theories/Editor_Spec.v
theories/Editor_Proofs.v
theories/Editor_Screen.v
theories/Editor_Pixels.v
theories/Editor_Props.v
theories/Repl_Model.v
theories/Repl_Spec.v
theories/Repl_Proofs.v
theories/Repl_Props.v
theories/Marks_Spec.v
theories/Marks_Proofs.v
theories/Marks_Props.v
theories/Args_Spec.v
theories/Args_Proofs.v
theories/Args_Props.v
theories/Steady_Proofs.v
theories/Defs_Proofs.v
theories/Call_Spec.v
theories/Run_Proofs.v
theories/Call_Proofs.v
theories/Host_Model.v
theories/Host_Proofs.v
theories/Host_Case.v
theories/Simple_Proofs.v
theories/User_Spec.v
theories/User_Proofs.v
theories/User_Props.v
theories/Host_Props.v
theories/Stmts_Model.v
theories/Stmts_Spec.v
theories/Stmts_Proofs.v
theories/StmtsEnd_Proofs.v
theories/StmtsConv_Proofs.v
theories/Stmts_Props.v
theories/Jump_Proofs.v
theories/Jump_Props.v
theories/Cmds_Model.v
theories/Cmds_Spec.v
theories/Cmds_Proofs.v
theories/Cmds_Host.v
theories/Cmds_Props.v
theories/Input_Model.v
theories/Input_Spec.v
theories/Input_Proofs.v
theories/Input_Props.v
theories/Machine_Model.v
theories/Machine_Spec.v
theories/Machine_Proofs.v
theories/Machine_Props.v
theories/Read_Model.v
theories/Read_Spec.v
theories/Read_Order.v
theories/Read_Proofs.v
theories/Read_Props.v
theories/Lib_Model.v
theories/Lib_Spec.v
theories/Lib_Proofs.v
theories/Lib_Run.v
theories/Gpio_Model.v
theories/Gpio_Spec.v
theories/Gpio_Proofs.v
theories/Gpio_Props.v
theories/Numerics_Model.v
theories/Numerics_Spec.v
theories/Numerics_Proofs.v
theories/Numerics_Range.v
theories/Numerics_Props.v
theories/Conspec_Model.v
theories/Conspec_Spec.v
theories/Conspec_Proofs.v
theories/Conspec_Props.v
theories/Textfns_Model.v
theories/Textfns_Spec.v
theories/Textfns_Proofs.v
theories/Textfns_Props.v
theories/Gfxcmds_Model.v
theories/Gfxcmds_Spec.v
theories/Gfxcmds_Proofs.v
theories/Gfxcmds_Props.v
theories/Propline_Model.v
theories/Propline_Spec.v
theories/Propline_Proofs.v
theories/Propline_Props.v
