-Q theories Verif
theories/Model_Text.v
theories/Model_Position.v
theories/Model_Span.v
theories/Model_Stack.v
theories/Model_Tracker.v
theories/Model_Node.v
theories/Model_Pairs.v
theories/Spec_Text.v
theories/Spec_Span.v
theories/Spec_Peg.v
theories/Spec_Run.v
theories/Spec_Tracker.v
theories/Spec_Yield.v
theories/Spec_Pairs.v
theories/Proof_Text.v
theories/Proof_Position.v
theories/Proof_Span.v
theories/Proof_Tracker.v
theories/Proof_Terminal.v
theories/Proof_Run.v
theories/Proof_Complete.v
theories/Proof_Peg.v
theories/Proof_Fuel.v
theories/Proof_Yield.v
theories/Proof_Pairs.v
theories/Thm_Position.v
theories/Thm_Span.v
theories/Proof_Node.v
theories/Proof_Entry.v
theories/Proof_Report.v
theories/Example_Grammar.v
theories/Thm_Node.v
theories/Thm_Parse.v
theories/Thm_Report.v
theories/Thm_Pairs.v
theories/Model_Message.v
theories/Spec_Message.v
theories/Proof_Message.v
theories/Thm_Message.v
theories/Model_Format.v
theories/Spec_Format.v
theories/Proof_Format.v
theories/Thm_Format.v
theories/Model_Unescape.v
theories/Spec_Unescape.v
theories/Proof_Unescape.v
theories/Thm_Unescape.v
theories/Model_Meta.v
theories/Model_Grammar.v
theories/Spec_Grammar.v
theories/Proof_Literal.v
theories/Proof_Pratt.v
theories/Proof_Grammar.v
theories/Proof_Reading.v
theories/Thm_Grammar.v
theories/Model_Import.v
theories/Spec_Import.v
theories/Proof_Import.v
theories/Proof_Load.v
theories/Thm_Import.v
theories/Model_Generator.v
theories/Model_Output.v
theories/Spec_Rust.v
theories/Spec_Grammar_Peg.v
theories/Spec_Occur.v
theories/Spec_Generator.v
theories/Proof_Emit.v
theories/Proof_Box.v
theories/Proof_Flatten.v
theories/Proof_Process.v
theories/Proof_Names.v
theories/Proof_Contents.v
theories/Proof_Place.v
theories/Proof_Resolve.v
theories/Proof_Raw.v
theories/Proof_Accept.v
theories/Proof_Compile.v
theories/Proof_Leaf.v
theories/Proof_Read.v
theories/Proof_Exists.v
theories/Spec_Layout.v
theories/Proof_Layout.v
theories/Example_Generator.v
theories/Example_Fine.v
theories/Model_Inline.v
theories/Spec_Inline.v
theories/Proof_Inline.v
theories/Proof_Inlined.v
theories/Proof_Inlining.v
theories/Proof_Inline_Ends.v
theories/Thm_Emit.v
theories/Thm_Flatten.v
theories/Thm_Box.v
theories/Thm_Names.v
theories/Thm_Generated.v
theories/Thm_Layout.v
theories/Example_Inline.v
theories/Thm_Inline.v
theories/Spec_Rules.v
theories/Proof_Rules.v
theories/Thm_Rules.v
theories/Spec_Getter.v
theories/Proof_Getter.v
theories/Thm_Getter.v
theories/Spec_Shape.v
theories/Proof_Shape.v
theories/Thm_Shape.v
theories/Spec_Terminate.v
theories/Proof_Terminate.v
theories/Thm_Terminate.v
theories/Spec_Grammar_Terminate.v
theories/Proof_Grammar_Terminate.v
theories/Thm_Grammar_Terminate.v
theories/Model_Pest2.v
theories/Example_Pest2.v
theories/Spec_Pest2.v
theories/Proof_Pest2.v
theories/Proof_Syntax.v
theories/Proof_Placed.v
theories/Proof_Regular.v
theories/Thm_Pest2.v
theories/Spec_Written.v
theories/Proof_First.v
theories/Proof_Tokens.v
theories/Proof_Written.v
theories/Proof_Written2.v
theories/Proof_Written3.v
theories/Proof_Written4.v
theories/Proof_Written5.v
theories/Thm_Written.v
theories/Model_Display.v
theories/Spec_Display.v
theories/Proof_Display.v
theories/Thm_Display.v
theories/Model_Derive.v
theories/Spec_Derive.v
theories/Proof_Derive.v
theories/Thm_Derive.v
theories/Proof_Alike.v
theories/Spec_Whole.v
theories/Thm_Whole.v
theories/Spec_Accepted.v
theories/Proof_Accepted.v
theories/Thm_Accepted.v
theories/Spec_Lossless.v
theories/Proof_Lossless.v
theories/Proof_Determined.v
theories/Proof_Quiet.v
theories/Thm_Lossless.v
theories/Model_Client.v
theories/Spec_Client.v
theories/Proof_Client.v
theories/Thm_Client.v
theories/Spec_Moved.v
theories/Proof_Moved.v
theories/Proof_Unplaced.v
theories/Thm_Moved.v
theories/Model_Equality.v
theories/Spec_Equality.v
theories/Proof_Equality.v
theories/Thm_Equality.v
theories/Model_State.v
theories/Spec_State.v
theories/Proof_State.v
theories/Thm_State.v
theories/Spec_Local.v
theories/Proof_Local.v
theories/Thm_Local.v
theories/Spec_Laws.v
theories/Proof_Det.v
theories/Proof_Laws.v
theories/Thm_Laws.v
theories/Model_Rename.v
theories/Thm_Rename.v
theories/Thm_Idents.v
theories/Spec_Grammar_Tree.v
theories/Spec_Grammar_Trace.v
theories/Proof_Grammar_Tree.v
theories/Proof_Grammar_Tree_Det.v
theories/Proof_Grammar_Tree_Inline.v
theories/Thm_Grammar_Tree.v
theories/Proof_Grammar_Trace.v
theories/Proof_Grammar_Trace_Det.v
theories/Proof_Grammar_Trace_Inline.v
theories/Thm_Grammar_Trace.v
theories/Thm_Whole_Tree.v
theories/Proof_Laws_Tree.v
theories/Thm_Laws_Tree.v
theories/Thm_Whole_Terminate.v
theories/Proof_Local_Tree.v
theories/Thm_Local_Tree.v
theories/Thm_Attempts.v
theories/Model_Memchr.v
theories/Thm_Memchr.v
theories/Spec_Renaming.v
theories/Proof_Renaming.v
theories/Thm_Renaming.v
theories/Proof_Renaming_Tree.v
theories/Thm_Renaming_Tree.v
theories/Spec_Laws_Trace.v
theories/Proof_Laws_Trace.v
theories/Thm_Laws_Trace.v
