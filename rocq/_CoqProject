-Q theories Verif
theories/Prelude.v
theories/NpModel.v
theories/CircleSpec.v
theories/NpProofs.v
theories/UtilsModel.v
theories/UtilsSpec.v
theories/UtilsProofs.v
theories/UtilsEx.v
theories/UtilsProps.v
theories/DescModel.v
theories/DescProofs.v
theories/DescSpec.v
theories/DescApi.v
theories/DescApi2.v
theories/DescEx.v
theories/DescProps.v
theories/Desc2Model.v
theories/Desc2Spec.v
theories/Desc2Proofs.v
theories/ArcProofs.v
theories/Desc3Proofs.v
theories/Desc4Proofs.v
theories/Desc5Proofs.v
theories/Desc6Proofs.v
theories/Desc7Proofs.v
theories/Desc8Proofs.v
theories/Desc9Proofs.v
theories/Desc2Ex.v
theories/Desc2Props.v
theories/Desc3Props.v
theories/HypModel.v
theories/HypSpec.v
theories/HypProofs.v
theories/Hyp2Proofs.v
theories/Hyp3Proofs.v
theories/HypEx.v
theories/HypProps.v
theories/HypGofModel.v
theories/HypGofSpec.v
theories/HypGofProofs.v
theories/HypGof2Proofs.v
theories/HypGof3Proofs.v
theories/HypGof4Proofs.v
theories/HypGof5Proofs.v
theories/HypGofEx.v
theories/HypGofProps.v
theories/HypMultiSpec.v
theories/HypMultiModel.v
theories/HypMulti2Model.v
theories/HypMultiProofs.v
theories/HypMulti2Proofs.v
theories/HypMulti3Proofs.v
theories/HypMulti4Proofs.v
theories/HypMulti5Proofs.v
theories/HypMulti6Proofs.v
theories/HypMulti7Proofs.v
theories/HypMulti8Proofs.v
theories/HypMulti9Proofs.v
theories/HypMulti10Proofs.v
theories/HypMultiEx.v
theories/HypMultiProps.v
theories/CorrModel.v
theories/CorrSpec.v
theories/CorrProofs.v
theories/Corr2Proofs.v
theories/Corr3Proofs.v
theories/Corr4Proofs.v
theories/Corr5Proofs.v
theories/Corr6Proofs.v
theories/CorrEx.v
theories/CorrProps.v
theories/ClusModel.v
theories/ClusSpec.v
theories/ClusProofs.v
theories/Clus2Proofs.v
theories/Clus3Proofs.v
theories/Clus4Proofs.v
theories/Clus5Proofs.v
theories/Clus6Proofs.v
theories/Clus7Proofs.v
theories/Clus8Proofs.v
theories/Clus9Proofs.v
theories/ClusProps.v
theories/EmModel.v
theories/EmSpec.v
theories/EmProofs.v
theories/Em2Proofs.v
theories/Em3Proofs.v
theories/Em4Proofs.v
theories/Em5Proofs.v
theories/Em6Proofs.v
theories/Em7Proofs.v
theories/Em8Proofs.v
theories/Em9Proofs.v
theories/Em10Proofs.v
theories/Em11Proofs.v
theories/Em12Proofs.v
theories/Em13Proofs.v
theories/EmEx.v
theories/EmProps.v
theories/IntSpec.v
theories/IntProofs.v
theories/DistModel.v
theories/DistSpec.v
theories/DistProofs.v
theories/Dist2Proofs.v
theories/Dist3Proofs.v
theories/Dist4Proofs.v
theories/Dist5Proofs.v
theories/Dist6Proofs.v
theories/Dist7Proofs.v
theories/Dist8Proofs.v
theories/DistEx.v
theories/DistProps.v
theories/KjModel.v
theories/KjSpec.v
theories/KjProofs.v
theories/Kj2Proofs.v
theories/Kj3Proofs.v
theories/Kj4Proofs.v
theories/Kj5Proofs.v
theories/Kj6Proofs.v
theories/Kj7Proofs.v
theories/Kj8Proofs.v
theories/KjEx.v
theories/KjProps.v
theories/VonModel.v
theories/VonSpec.v
theories/VonProofs.v
theories/Von2Proofs.v
theories/Von3Proofs.v
theories/Von4Proofs.v
theories/Von5Proofs.v
theories/Von6Proofs.v
theories/VonEx.v
theories/VonProps.v
theories/WnModel.v
theories/WnSpec.v
theories/WnProofs.v
theories/FourierProofs.v
theories/GaussProofs.v
theories/Wn2Proofs.v
theories/Wn3Proofs.v
theories/Wn4Proofs.v
theories/Wn5Proofs.v
theories/Wn6Proofs.v
theories/Wn7Proofs.v
theories/Wn8Proofs.v
theories/WnEx.v
theories/WnProps.v
theories/WsModel.v
theories/WsSpec.v
theories/WsProofs.v
theories/Ws2Proofs.v
theories/Ws3Proofs.v
theories/Ws4Proofs.v
theories/Ws5Proofs.v
theories/Ws6Proofs.v
theories/Ws7Proofs.v
theories/WsEx.v
theories/WsProps.v
theories/JpModel.v
theories/JpSpec.v
theories/JpProofs.v
theories/Jp2Proofs.v
theories/Jp3Proofs.v
theories/Jp4Proofs.v
theories/Jp5Proofs.v
theories/Jp6Proofs.v
theories/Jp7Proofs.v
theories/Jp8Proofs.v
theories/JpEx.v
theories/JpProps.v
theories/CcModel.v
theories/CcSpec.v
theories/CcProofs.v
theories/Cc2Proofs.v
theories/Cc3Proofs.v
theories/Cc4Proofs.v
theories/Cc5Proofs.v
theories/CcEx.v
theories/CcProps.v
theories/FtModel.v
theories/FtSpec.v
theories/FtProofs.v
theories/Ft2Proofs.v
theories/Ft3Proofs.v
theories/Ft4Proofs.v
theories/Ft5Proofs.v
theories/Ft6Proofs.v
theories/Ft7Proofs.v
theories/Ft8Proofs.v
theories/IbModel.v
theories/IbProofs.v
theories/Ib2Proofs.v
theories/Ib3Proofs.v
theories/Ib4Proofs.v
theories/Ib5Proofs.v
theories/Ft9Proofs.v
theories/Ib6Proofs.v
theories/FtEx.v
theories/FtProps.v
theories/IbProps.v
theories/BaseModel.v
theories/BaseSpec.v
theories/BaseProofs.v
theories/Base2Proofs.v
theories/Base3Proofs.v
theories/Base4Proofs.v
theories/Base5Proofs.v
theories/Base6Proofs.v
theories/Base7Proofs.v
theories/Base8Proofs.v
theories/Base9Proofs.v
theories/Base10Proofs.v
theories/Base11Proofs.v
theories/Base12Proofs.v
theories/Base13Proofs.v
theories/Base14Proofs.v
theories/Base15Proofs.v
theories/BaseEx.v
theories/BaseProps.v
theories/RegModel.v
theories/RegSpec.v
theories/RegProofs.v
theories/Reg2Proofs.v
theories/Reg3Proofs.v
theories/Reg4Proofs.v
theories/Reg5Proofs.v
theories/Reg6Proofs.v
theories/Reg7Proofs.v
theories/Reg8Proofs.v
theories/Reg9Proofs.v
theories/RegEx.v
theories/RegProps.v
theories/RegClSpec.v
theories/Reg10Proofs.v
theories/Reg11Proofs.v
theories/Reg12Proofs.v
theories/Reg13Proofs.v
theories/Reg14Proofs.v
theories/Reg15Proofs.v
theories/Reg16Proofs.v
theories/Reg17Proofs.v
theories/RegClEx.v
theories/RegClProps.v
theories/RegSeSpec.v
theories/Reg18Proofs.v
theories/Reg19Proofs.v
theories/Reg20Proofs.v
theories/RegSeEx.v
theories/RegSeProps.v
theories/JsModel.v
theories/JsProofs.v
theories/Js2Proofs.v
theories/Js3Proofs.v
theories/Js4Proofs.v
theories/Js5Proofs.v
theories/Js6Proofs.v
theories/JsProps.v
theories/CwModel.v
theories/CwSpec.v
theories/GamProofs.v
theories/Gam2Proofs.v
theories/CwProofs.v
theories/Cw2Proofs.v
theories/Cw3Proofs.v
theories/Cw4Proofs.v
theories/GamEx.v
theories/CwEx.v
theories/CwProps.v
theories/FcModel.v
theories/FcSpec.v
theories/FcProofs.v
theories/Fc2Proofs.v
theories/Fc3Proofs.v
theories/Fc4Proofs.v
theories/FcEx.v
theories/FcProps.v
theories/VzModel.v
theories/VzSpec.v
theories/VzProofs.v
theories/Vz2Proofs.v
theories/Vz3Proofs.v
theories/Vz4Proofs.v
theories/VzEx.v
theories/VzProps.v
theories/KdeModel.v
theories/KdeSpec.v
theories/KdeProofs.v
theories/KdeEx.v
theories/KdeProps.v
theories/MxModel.v
theories/MxSpec.v
theories/MxProofs.v
theories/Mx2Proofs.v
theories/MxEx.v
theories/MxProps.v
theories/ModesModel.v
theories/ModesSpec.v
theories/ModesProofs.v
theories/Modes2Proofs.v
theories/ModesEx.v
theories/ModesProps.v
theories/SumModel.v
theories/SumSpec.v
theories/SumProofs.v
theories/Sum2Proofs.v
theories/SumProps.v
theories/LevModel.v
theories/LevSpec.v
theories/LevProofs.v
theories/LevProps.v
theories/RepModel.v
theories/RepSpec.v
theories/RepProofs.v
theories/RepProps.v
theories/ClockModel.v
theories/ClockSpec.v
theories/ClockProofs.v
theories/ClockProps.v
theories/SigModel.v
theories/SigProofs.v
theories/SigProps.v
theories/DupModel.v
theories/DupProofs.v
theories/MomrProofs.v
theories/MomrProps.v
theories/AliasProofs.v
theories/Alias2Proofs.v
theories/RngModel.v
theories/RngSpec.v
theories/RngProofs.v
theories/RngProps.v
