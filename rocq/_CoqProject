-Q theories Verif
theories/Base.v
theories/BaseFacts.v
theories/Schema.v
theories/Ast.v
theories/Ir.v
theories/Typescript.v
theories/Path.v
theories/Cli.v
theories/Graphql.v
theories/Pool.v
theories/Main.v
theories/Fixtures.v
theories/SpecTs.v
theories/SpecTsFacts.v
theories/SpecGql.v
theories/WrapFacts.v
theories/PropC01.v
theories/SpecSel.v
theories/CollectFacts.v
theories/CollectMain.v
theories/SpecIr.v
theories/IrFacts.v
theories/SpecMod.v
theories/RenderFacts.v
theories/SpecCli.v
theories/CliFacts.v
theories/ProcFacts.v
theories/PropC44.v
theories/PropC45.v
theories/PropC46.v
theories/PropC47.v
theories/SpecPool.v
theories/PoolFacts.v
theories/PoolMain.v
theories/SpecTree.v
theories/TreeFacts.v
theories/Worlds.v
theories/PoolProps.v
theories/PropC36.v
theories/PropC37.v
theories/PropC38.v
theories/PropC39.v
theories/PropC40.v
theories/PropC41.v
theories/PropC42.v
theories/SpecPath.v
theories/PathFacts.v
theories/ScanFacts.v
theories/PropC28.v
theories/GraphqlFacts.v
theories/PropC29.v
theories/SpecLoad.v
theories/LoadFacts.v
theories/PropC22.v
theories/SpecImport.v
theories/ImportFacts.v
theories/ImportMain.v
theories/ImportTerm.v
theories/ImportProps.v
theories/ImportWorlds.v
theories/PropC30.v
theories/PropC31.v
theories/PropC32.v
theories/PropC33.v
theories/PropC34.v
theories/PropC02.v
theories/SpecDoc.v
theories/DocFacts.v
theories/SpecRead.v
theories/ReadFacts.v
theories/PropC20.v
theories/SpecGlobal.v
theories/GlobalFacts.v
theories/GlobalText.v
theories/InputFacts.v
theories/PropC24.v
theories/PropC25.v
theories/PropC26.v
theories/PropC27.v
theories/Npm.v
theories/PropC50.v
theories/SpecFs.v
theories/FsFacts.v
theories/RunFacts.v
theories/PropC43.v
theories/PropC49.v
theories/ShapeFacts.v
theories/SelRun.v
theories/SelRunFacts.v
theories/SpecShape.v
theories/ShapeIr.v
theories/SpecDiag.v
theories/DiagFacts.v
theories/TermFacts.v
theories/DefFacts.v
theories/SelWorlds.v
theories/PropC06.v
theories/PropC08.v
theories/PropC09.v
theories/PropC10.v
theories/PropC11.v
theories/PropC12.v
theories/SpecFile.v
theories/SpecVar.v
theories/PlanFacts.v
theories/FileFacts.v
theories/VarFacts.v
theories/SpecKeys.v
theories/SpecName.v
theories/KeyFacts.v
theories/NameFacts.v
theories/Written.v
theories/NameCheck.v
theories/LoadName.v
theories/SpecStmt.v
theories/GlobalRead.v
theories/Compiled.v
theories/PropC05.v
theories/PropC13.v
theories/PropC14.v
theories/PropC51.v
theories/PropC52.v
theories/PropC15.v
theories/PropC17.v
theories/PropC19.v
theories/PropC21.v
theories/SpecReg.v
theories/DescFacts.v
theories/DocDesc.v
theories/SpecDecl.v
theories/DeclFacts.v
theories/RegCheck.v
theories/ShareWorlds.v
theories/PropC03.v
theories/PropC16.v
theories/PropC23.v
theories/PropC35.v
theories/PropC18.v
theories/SpecResp.v
theories/RespFacts.v
theories/IntroCheck.v
theories/PropC04.v
theories/TravEq.v
theories/CollectEq.v
theories/FragExt.v
theories/RunDet.v
theories/PropC07.v
theories/Rewrite.v
theories/PropC48.v
theories/JsonCheck.v
theories/WrittenEq.v
theories/Package.v
theories/PropC53.v
theories/PropC54.v
theories/PropC55.v
theories/PropC56.v
theories/Decode.v
theories/SpecJson.v
theories/DecodeFacts.v
theories/SameFacts.v
theories/PropC57.v
theories/PropC58.v
theories/Download.v
theories/SpecDownload.v
theories/DownloadFacts.v
theories/PropC59.v
theories/PropC60.v
theories/Nodes.v
theories/PropC61.v
theories/Fine.v
theories/FineFacts.v
theories/FineSim.v
theories/FineMore.v
theories/PropC62.v
theories/SpecEdit.v
theories/EditFacts.v
theories/Strsim.v
theories/StrsimFacts.v
theories/PropC63.v
theories/Colour.v
theories/SpecTerm.v
theories/ScreenFacts.v
theories/SpecLook.v
theories/LookFacts.v
theories/PropC64.v
theories/Args.v
theories/SpecArgs.v
theories/ArgsFacts.v
theories/PropC65.v
theories/SpecMsg.v
theories/MsgFacts.v
theories/PropC66.v
theories/Json.v
theories/SpecJtext.v
theories/JsonFacts.v
theories/LexFacts.v
theories/TextFacts.v
theories/StringFacts.v
theories/PropC67.v
theories/Release.v
theories/ReleaseFacts.v
theories/PropC68.v
theories/Gql.v
theories/SpecGtext.v
theories/GparseFacts.v
theories/GlexFacts.v
theories/GlayoutFacts.v
theories/PropC69.v
theories/SpecGpos.v
theories/GposFacts.v
theories/GposMore.v
theories/PropC70.v
theories/SpecLayout.v
theories/LayoutFacts.v
theories/PropC71.v
theories/SpecLink.v
theories/LinkFacts.v
theories/LinkData.v
theories/LinkExt.v
theories/PropC72.v
theories/SpecInput.v
theories/RequestFacts.v
theories/PropC73.v
theories/SpecExact.v
theories/ExactFacts.v
theories/SpecWide.v
theories/WideFacts.v
theories/LinkExact.v
theories/PropC74.v
theories/AskFacts.v
theories/PropC75.v
theories/SpecClient.v
theories/PropC76.v
theories/SpecAgain.v
theories/AgainFacts.v
theories/PropC77.v
theories/SpecEnd.v
theories/EndFacts.v
theories/PropC78.v
theories/SpecProject.v
theories/ProjectFacts.v
theories/PropC79.v
theories/PropC80.v
theories/SpecGrow.v
theories/GrowFacts.v
theories/GrowWorlds.v
theories/PropC81.v
theories/SpecPart.v
theories/PartFacts.v
theories/PropC82.v
theories/SpecAssign.v
theories/AssignFacts.v
theories/PropC83.v
theories/SpecRecast.v
theories/RecastFacts.v
theories/PropC84.v
theories/Entry.v
theories/PropC85.v
theories/SpecSetting.v
theories/SettingFacts.v
theories/SettingRun.v
theories/PropC86.v
theories/SpecRename.v
theories/RenameFacts.v
theories/PropC87.v
theories/SpecMore.v
theories/MoreFacts.v
theories/PropC88.v
theories/SpecPromise.v
theories/PromiseFacts.v
theories/PropC89.v
theories/SpecRequire.v
theories/PropC90.v
theories/PropC91.v
theories/SpecRearrange.v
theories/RearrangeFacts.v
theories/PropC92.v
theories/SpecRefactor.v
theories/RefactorFacts.v
theories/PropC93.v
theories/SpecDocs.v
theories/DocsFacts.v
theories/PropC94.v
theories/SpecNarrow.v
theories/PropC95.v
theories/SpecMove.v
theories/MoveFacts.v
theories/PlaceFacts.v
theories/PropC96.v
theories/SpecTrim.v
theories/TrimFacts.v
theories/PropC97.v
theories/SpecPrune.v
theories/PruneFacts.v
theories/PropC98.v
theories/SpecAdd.v
theories/PropC99.v
