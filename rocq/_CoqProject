-Q theories Verif
theories/Base.v
theories/PermsModel.v
theories/PermsSpec.v
theories/PermsProofs.v
theories/PropPerms.v
theories/FactsModel.v
theories/FactsSpec.v
theories/FactsProofs.v
theories/PropFacts.v
theories/FlowModel.v
theories/FlowSpec.v
theories/FlowProofs.v
theories/PropFlow.v
theories/SpansModel.v
theories/SpansSpec.v
theories/SpansProofs.v
theories/PropSpans.v
theories/BoundariesModel.v
theories/BoundariesSpec.v
theories/BoundariesProofs.v
theories/PropBoundaries.v
theories/UsesModel.v
theories/UsesSpec.v
theories/UsesProofs.v
theories/PropUses.v
theories/CfgModel.v
theories/CfgSpec.v
theories/CfgProofs.v
theories/PropCfg.v
theories/SegMirModel.v
theories/SegMirSpec.v
theories/SegMirProofs.v
theories/SegMirSound.v
theories/SegMirScopes.v
theories/SegMirClose.v
theories/SegMirTerm.v
theories/SegMirTree.v
theories/SegMirInsert.v
theories/PropSegMir.v
theories/TablesModel.v
theories/TablesSpec.v
theories/TablesProofs.v
theories/TablesExact.v
theories/TablesPretty.v
theories/PropTables.v
theories/TraceModel.v
theories/TraceSpec.v
theories/TraceProofs.v
theories/TraceMachine.v
theories/PropTrace.v
theories/ValuesModel.v
theories/ValuesSpec.v
theories/ValuesProofs.v
theories/PropValues.v
theories/BookModel.v
theories/BookSpec.v
theories/BookProofs.v
theories/PropBook.v
theories/CacheModel.v
theories/CacheSpec.v
theories/CacheProofs.v
theories/PropCache.v
theories/RunModel.v
theories/RunSpec.v
theories/RunProofs.v
theories/PropRun.v
theories/FrontModel.v
theories/FrontSpec.v
theories/FrontProofs.v
theories/PropFront.v
theories/EditorModel.v
theories/EditorSpec.v
theories/EditorProofs.v
theories/PropEditor.v
theories/HirModel.v
theories/HirSpec.v
theories/HirProofs.v
theories/PropHir.v
theories/HirGuards.v
theories/PropGuards.v
theories/HirHide.v
theories/HirSides.v
theories/PropHide.v
theories/MapperModel.v
theories/MapperSpec.v
theories/PropMapper.v
theories/ReaderModel.v
theories/ReaderSpec.v
theories/ReaderProofs.v
theories/PropReader.v
theories/LocalsModel.v
theories/LocalsSpec.v
theories/PropLocals.v
theories/ReplaySpec.v
theories/PropReplay.v
theories/MonoSpec.v
theories/PropMono.v
theories/WholeModel.v
theories/WholeSpec.v
theories/WholeProofs.v
theories/PropWhole.v
theories/PageModel.v
theories/PageSpec.v
theories/PageProofs.v
theories/PropPage.v
theories/StepsModel.v
theories/StepsSpec.v
theories/StepsProofs.v
theories/PropSteps.v
theories/StraightSpec.v
theories/StraightProofs.v
theories/PropStraight.v
theories/NumbersModel.v
theories/NumbersSpec.v
theories/NumbersProofs.v
theories/PropNumbers.v
theories/EmbedModel.v
theories/EmbedSpec.v
theories/PropEmbed.v
theories/AgainSpec.v
theories/PropAgain.v
theories/ServeModel.v
theories/ServeSpec.v
theories/PropServe.v
theories/BuildModel.v
theories/BuildSpec.v
theories/BuildProofs.v
theories/PropBuild.v
theories/LookModel.v
theories/LookSpec.v
theories/LookProofs.v
theories/PropLook.v
theories/ArrowsModel.v
theories/ArrowsSpec.v
theories/ArrowsProofs.v
theories/PropArrows.v
theories/JsonModel.v
theories/JsonSpec.v
theories/JsonProofs.v
theories/PropJson.v
theories/WireModel.v
theories/WireSpec.v
theories/WireProofs.v
theories/PropWire.v
theories/ReportModel.v
theories/ReportSpec.v
theories/ReportProofs.v
theories/PropReport.v
theories/DrawModel.v
theories/DrawSpec.v
theories/DrawProofs.v
theories/PropDraw.v
theories/ThroughSpec.v
theories/ThroughProofs.v
theories/PropThrough.v
theories/TogetherModel.v
theories/TogetherSpec.v
theories/TogetherProofs.v
theories/PropTogether.v
theories/TellModel.v
theories/TellSpec.v
theories/TellProofs.v
theories/PropTell.v
theories/KeptModel.v
theories/KeptSpec.v
theories/KeptProofs.v
theories/PropKept.v
theories/LightsModel.v
theories/LightsSpec.v
theories/LightsProofs.v
theories/PropLights.v
theories/ScreenModel.v
theories/ScreenSpec.v
theories/ScreenProofs.v
theories/PropScreen.v
theories/LessonModel.v
theories/LessonSpec.v
theories/LessonProofs.v
theories/PropLesson.v
theories/GlassModel.v
theories/GlassSpec.v
theories/GlassProofs.v
theories/PropGlass.v
theories/ToolsModel.v
theories/ToolsSpec.v
theories/ToolsProofs.v
theories/PropTools.v
theories/VeilModel.v
theories/VeilSpec.v
theories/VeilProofs.v
theories/PropVeil.v
theories/CardsModel.v
theories/CardsSpec.v
theories/CardsProofs.v
theories/PropCards.v
theories/ChecksModel.v
theories/ChecksSpec.v
theories/ChecksProofs.v
theories/PropChecks.v
theories/ViewsSpec.v
theories/ViewsProofs.v
theories/PropViews.v
theories/StartModel.v
theories/StartSpec.v
theories/StartProofs.v
theories/PropStart.v
theories/ValidModel.v
theories/ValidSpec.v
theories/ValidProofs.v
theories/PropValid.v
theories/SnapModel.v
theories/SnapSpec.v
theories/SnapProofs.v
theories/PropSnap.v
theories/MountModel.v
theories/MountSpec.v
theories/PropMount.v
